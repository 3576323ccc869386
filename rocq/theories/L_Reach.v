(** Every session that can be reached meets the invariant. *)
From Coq Require Import List Ascii String NArith ZArith Bool Lia Arith Permutation.
From Verif Require Import M_Base M_StringUtil M_LinkedList M_Trie M_Tree M_Context M_Tokenizer M_Parser M_TreeUtil M_Match M_RuleParsing M_ArithCtx
  M_Double M_Eval M_Simplify M_Session
  S_Util S_Engine S_Parse S_Tree S_Match S_Session L_StringUtil L_LinkedList L_Trie L_Tokenizer L_Context P_Context L_ArithCtx L_SetUp L_Lex
  L_Tree L_Match L_MatchRule L_RuleParsing P_Parse L_Expand L_SessionCtx L_OpsKept L_Session L_SessionDef L_SessionCmd.
Import ListNotations.
Open Scope list_scope.
Open Scope nat_scope.
Open Scope res_scope.

(** ** The choice of the command *)
Lemma help_spec : forall l, cmd_help_check l = true <-> is_help l.
Proof. intros l. unfold cmd_help_check, is_help. rewrite !orb_true_iff, !streqb_eq. tauto. Qed.
Lemma table_spec : forall l, cmd_table_check l = true <-> is_table l.
Proof. intros l. apply begins_with_spec. Qed.
Lemma definition_spec : forall l, cmd_definition_check l = true <-> is_definition l.
Proof.
  intros l. unfold cmd_definition_check, is_definition. destruct (strstr l DEFINITION_OP) as [n|] eqn:E.
  - split; auto. intros _. apply strstr_some in E. destruct E as (_ & E & _). rewrite E. apply in_or_app. right. left. reflexivity.
  - split; [discriminate|]. intros I. exfalso. apply strstr_none in E. apply in_split in I. destruct I as (a & b & ->). apply (E a b). reflexivity.
Qed.
Lemma clear_spec : forall l, cmd_clear_check l = true <-> is_clear l.
Proof.
  intros l. unfold cmd_clear_check, is_clear. rewrite orb_true_iff, begins_with_spec, streqb_eq. split; [|auto]. intros [<-|H]; auto. exists []. reflexivity.
Qed.
Lemma load_spec : forall l, cmd_load_check l = true <-> is_load l.
Proof. intros l. apply begins_with_spec. Qed.
Lemma check_false : forall (c : cstr -> bool) (P : cstr -> Prop), (forall l, c l = true <-> P l) -> forall l, ~ P l -> c l = false.
Proof. intros c P H l N. destruct (c l) eqn:E; auto. exfalso. apply N. apply H. auto. Qed.
Lemma handles_exists : forall l, exists k, handles k l.
Proof.
  intros l. destruct (cmd_help_check l) eqn:E1. { exists KHelp. constructor. apply help_spec. auto. }
  assert (N1 : ~ is_help l) by (rewrite <- help_spec; congruence).
  destruct (cmd_table_check l) eqn:E2. { exists KTable. constructor; auto. apply table_spec. auto. }
  assert (N2 : ~ is_table l) by (rewrite <- table_spec; congruence).
  destruct (cmd_definition_check l) eqn:E3. { exists KDefinition. constructor; auto. apply definition_spec. auto. }
  assert (N3 : ~ is_definition l) by (rewrite <- definition_spec; congruence).
  destruct (cmd_clear_check l) eqn:E4. { exists KClear. constructor; auto. apply clear_spec. auto. }
  assert (N4 : ~ is_clear l) by (rewrite <- clear_spec; congruence).
  destruct (cmd_load_check l) eqn:E5. { exists KLoad. constructor; auto. apply load_spec. auto. }
  assert (N5 : ~ is_load l) by (rewrite <- load_spec; congruence).
  exists KEvaluation. constructor; auto.
Qed.
Lemma handles_unique : forall l k k', handles k l -> handles k' l -> k = k'.
Proof. intros l k k' H H'. destruct H; inversion H'; subst; auto; contradiction. Qed.

(** ** The left side of a definition *)
Section Words.
Variable strtod : cstr -> option double.
Variable pc : pctx.
Variable g : operator.
Hypothesis Gl : pc_glue pc = Some g.
Definition nonparen (t : cstr) : bool := negb (is_opening_parenthesis t || is_closing_parenthesis t || is_delimiter t).
Lemma words_rest : forall ts b, operators (roles strtod pc b ts) = [] -> Forall var_node (operands (roles strtod pc b ts)) ->
  flat_map var_names (operands (roles strtod pc b ts)) = filter nonparen (map snd ts).
Proof.
  assert (A : forall a b, operators (a ++ b) = operators a ++ operators b) by (intros; apply flat_map_app).
  assert (A' : forall a b, operands (a ++ b) = operands a ++ operands b) by (intros; apply flat_map_app).
  induction ts as [|t ts IH]; intros b O V; auto. cbn [map filter]. unfold nonparen at 1. cbn [roles] in *.
  destruct (is_opening_parenthesis (snd t)); cbn [orb negb].
  { destruct b; [|apply IH; auto]. unfold glue_role in O. rewrite Gl in O. discriminate O. }
  destruct (is_closing_parenthesis (snd t)); cbn [orb negb]; [apply IH; auto|].
  destruct (is_delimiter (snd t)); cbn [orb negb]; [apply IH; auto|].
  destruct b.
  { destruct (pc_lookup pc PInfix (snd t)); [discriminate O|]. destruct (pc_lookup pc PPostfix (snd t)); [discriminate O|]. unfold glue_role in O. rewrite Gl in O. discriminate O. }
  unfold operand_role in O, V |- *. destruct (pc_lookup pc PFunction (snd t)) as [f|].
  { destruct (arity_eqb (o_arity f) (Some 0)); [|discriminate O]. cbn in V. inversion V; subst. contradiction. }
  destruct (pc_lookup pc PPrefix (snd t)); [discriminate O|]. destruct (strtod (snd t)). { cbn in V. inversion V; subst. contradiction. }
  cbn [fst snd] in *. cbn in O, V. inversion V; subst. cbn. f_equal. apply IH; auto.
Qed.
End Words.
Lemma letter_word : forall x, starts_in letter_char x -> is_opening_parenthesis x = false /\ is_closing_parenthesis x = false /\ is_delimiter x = false.
Proof.
  intros x (c & r & -> & Lx). apply is_letter_spec in Lx. unfold is_opening_parenthesis, is_closing_parenthesis, is_delimiter.
  destruct c as [[|] [|] [|] [|] [|] [|] [|] [|]]; try discriminate Lx; repeat split; reflexivity.
Qed.
Lemma left_words : forall strtod c us op0 ts op cs k input name others, sctx c (us ++ [op0]) -> reg_find (arith_registry ++ us) name PFunction = None ->
  o_name op0 = name -> o_place op0 = PFunction -> starts_in letter_char name ->
  map snd (unblanked ts) = name :: others -> parse_input strtod c input = Ok (ts, PTree (NOp op cs k)) -> Forall var_node cs ->
  words ts = name :: flat_map var_names cs.
Proof.
  intros strtod c us op0 ts op cs k input name others S Fr On Op St U E V. destruct (C18_tokens_used_once _ _ _ _ _ (proj1 (proj2 S)) E) as [Lv Ops]. pose proof (C17_arities_respected _ _ _ _ _ E) as A.
  destruct (letter_word _ St) as (N1 & N2 & N3). unfold words. rewrite U. cbn [filter]. rewrite N1, N2, N3. cbn [orb negb]. f_equal. change (fun t : cstr => negb (is_opening_parenthesis t || is_closing_parenthesis t || is_delimiter t)) with nonparen.
  destruct (unblanked ts) as [|[i nm] rest] eqn:Eu; [discriminate U|]. cbn [map snd] in U. injection U as -> <-.
  assert (Lk : pc_lookup (view c) PFunction name = Some op0).
  { unfold view. cbn [pc_lookup]. rewrite (lookup_crep _ _ _ _ (proj1 S)), app_assoc, reg_find_app, Fr. unfold reg_find. simpl. unfold same_slot. rewrite Op, On, streqb_refl. reflexivity. }
  assert (Gl : pc_glue (view c) = Some star). { unfold view. cbn [pc_glue]. rewrite (sctx_glue _ _ S). reflexivity. }
  cbn [roles snd] in Lv, Ops. rewrite N1, N2, N3 in Lv, Ops. unfold operand_role in Lv, Ops. cbn [snd fst] in Lv, Ops. rewrite Lk in Lv, Ops.
  assert (Vl : flat_map leaves cs = cs /\ flat_map tree_ops cs = []).
  { clear - V. induction V as [|n cs H V [I1 I2]]; auto. destruct n; try contradiction. cbn. rewrite I1, I2. auto. }
  destruct Vl as [Vl Vo]. cbn [leaves tree_ops] in Lv, Ops. rewrite Vl in Lv. rewrite Vo in Ops.
  destruct (arity_eqb (o_arity op0) (Some 0)) eqn:Z.
  - cbn [fst snd operands flat_map app operators] in Lv, Ops. destruct (arity_eqb (o_arity op) (Some 0)) eqn:Z'.
    + injection Lv as Eo Ec Ek Er. apply Permutation_nil in Ops. subst cs. symmetry.
      rewrite <- (words_rest strtod (view c) star Gl rest true). { unfold operands. rewrite <- Er. reflexivity. } { exact Ops. } { unfold operands. rewrite <- Er. constructor. }
    + exfalso. rewrite Lv in V. inversion V; subst. contradiction.
  - cbn [fst snd operands flat_map app operators] in Lv, Ops. destruct (arity_eqb (o_arity op) (Some 0)) eqn:Z'.
    + exfalso. apply Permutation_nil in Ops. discriminate Ops.
    + assert (O' : operators (roles strtod (view c) false rest) = []).
      { pose proof (Permutation_length Ops) as Le. cbn in Le. injection Le as Le. unfold operators. destruct (flat_map _ (roles strtod (view c) false rest)); auto. discriminate Le. }
      change (flat_map (fun r => match r with ROperand n => [n] | ROperator _ _ => [] end) (roles strtod (view c) false rest)) with (operands (roles strtod (view c) false rest)) in Lv.
      symmetry. rewrite Lv. rewrite (words_rest strtod (view c) star Gl rest false); auto. rewrite <- Lv. auto.
Qed.

(** ** Operators *)
Lemma numbered_nth : forall ops i, nth_error (numbered ops) i = option_map (fun x => mkOp (o_name x) i (o_arity x) (o_prec x) (o_assoc x) (o_place x) i) (nth_error ops i).
Proof.
  intros ops. unfold numbered. assert (H : forall k i, nth_error (map (fun x => mkOp (o_name (snd x)) (fst x) (o_arity (snd x)) (o_prec (snd x)) (o_assoc (snd x)) (o_place (snd x)) (fst x))
    (combine (List.seq k (List.length ops)) ops)) i = option_map (fun x => mkOp (o_name x) (k + i) (o_arity x) (o_prec x) (o_assoc x) (o_place x) (k + i)) (nth_error ops i)).
  { induction ops as [|o ops IH]; intros k [|i]; cbn; auto.
    - rewrite Nat.add_0_r. reflexivity.
    - rewrite IH. replace (S k + i) with (k + S i) by lia. reflexivity. }
  intros i. rewrite H. reflexivity.
Qed.
Lemma calculator_builtin : forall op, calculator_operator op <-> builtin_like op.
Proof.
  intros op. unfold calculator_operator, builtin_like, arith_registry. generalize arith_ops. intros ops. split.
  - intros (b & E & En & Ep). exists (mkOp (o_name b) (o_id op) (o_arity b) (o_prec b) (o_assoc b) (o_place b) (o_id op)).
    split; [|auto]. apply (nth_error_In _ (o_id op)). rewrite numbered_nth, E. reflexivity.
  - intros (b & I & En & Ep & Ei). apply In_nth_error in I. destruct I as (i & I). rewrite numbered_nth in I. destruct (nth_error ops i) as [a|] eqn:Ea; [|discriminate I].
    injection I as I. subst b. cbn in *. exists a. rewrite <- Ei. auto.
Qed.
Lemma G_operators : forall Q t, G Q t <-> (forall op, In op (operators_of t) -> Q op).
Proof.
  intros Q. induction t as [v k|x i k|op cs k IH] using node_ind'; try (split; [intros _ op []|intros; exact Logic.I]). unfold G in *. rewrite all_ops_op. cbn [operators_of]. rewrite Forall_forall in *. split.
  - intros [A B] o [<-|I]; auto. apply in_flat_map in I. destruct I as (c & Ic & I). apply (proj1 (IH c Ic) (B c Ic)). auto.
  - intros H. split. { apply H. left. auto. } intros c Ic. apply (IH c Ic). intros o I. apply H. right. apply in_flat_map. eauto.
Qed.
Lemma own_tame : forall sm, own_operators sm -> tame builtin_like sm.
Proof.
  intros sm [A B]. split.
  - apply Forall_forall. intros rs Ir. apply Forall_forall. intros r I. apply G_operators. intros op Io. apply calculator_builtin. eauto.
  - intros a E. apply G_operators. intros op Io. apply calculator_builtin. eauto.
Qed.

Section Reach.
Variable L : libm.
Variable fuel : nat.
Variable strtod : cstr -> option double.
Variable files : cstr -> option (list ascii).
Notation exec := (exec_command L fuel strtod files).

Lemma exec_definition : forall d s l, handles KDefinition l -> exec (S d) s l = cmd_definition_exec L fuel strtod s l.
Proof. intros d s l H. inversion H; subst. cbn [exec_command]. rewrite (check_false _ _ help_spec), (check_false _ _ table_spec), (proj2 (definition_spec l)); auto. Qed.
Lemma exec_clear : forall d s l, handles KClear l -> exec (S d) s l = cmd_clear_exec s l.
Proof. intros d s l H. inversion H; subst. cbn [exec_command]. rewrite (check_false _ _ help_spec), (check_false _ _ table_spec), (check_false _ _ definition_spec), (proj2 (clear_spec l)); auto. Qed.
Lemma exec_help : forall d s l, handles KHelp l -> exec (S d) s l = Done (Ok (Did s [SHelp] true)).
Proof. intros d s l H. inversion H; subst. cbn [exec_command]. rewrite (proj2 (help_spec l)); auto. Qed.
Lemma exec_table : forall d s l, handles KTable l -> exec (S d) s l = cmd_table_exec L fuel strtod s l.
Proof. intros d s l H. inversion H; subst. cbn [exec_command]. rewrite (check_false _ _ help_spec), (proj2 (table_spec l)); auto. Qed.
Lemma exec_evaluation : forall d s l, handles KEvaluation l -> exec (S d) s l = cmd_evaluation_exec L fuel strtod s l.
Proof.
  intros d s l H. inversion H; subst. cbn [exec_command].
  rewrite (check_false _ _ help_spec), (check_false _ _ table_spec), (check_false _ _ definition_spec), (check_false _ _ clear_spec), (check_false _ _ load_spec); auto.
Qed.
Lemma clear_kind : handles KClear (str "clear").
Proof.
  constructor.
  - rewrite <- help_spec. vm_compute. discriminate.
  - rewrite <- table_spec. vm_compute. discriminate.
  - rewrite <- definition_spec. vm_compute. discriminate.
  - exists []. reflexivity.
Qed.

Lemma init_fields : forall files0 path rand s g, get_arith_ctx = Ok g -> init_commands strtod files0 path rand = Ok s -> ss_ctx s = g /\ ss_funs s = [].
Proof.
  intros files0 path rand s g. unfold init_commands. generalize get_arith_ctx init_propositional_ctx. intros x y -> E. cbn [rbind] in E.
  destruct y as [pc| |]; cbn [rbind] in E; try discriminate E.
  destruct (init_simplification strtod g pc (files0 path)) as [r| |]; cbn [rbind] in E; try discriminate E.
  injection E as <-. split; reflexivity.
Qed.
Lemma inv_start : forall files0 path rand s, init_commands strtod files0 path rand = Ok s -> inv s [].
Proof.
  intros files0 path rand s E. destruct (init_fields _ _ _ _ _ (proj1 arith_ctx_ok) E) as [Ec Ef]. constructor.
  - rewrite Ec. apply sctx_init.
  - rewrite Ef. constructor.
  - constructor.
Qed.

Lemma cut_fixed : forall d s a b a' b', cut_at_first d s a b -> cut_at_first d s a' b' -> a = a' /\ b = b'.
Proof.
  intros d s a b a' b' [E M] [E' M']. pose proof (M _ _ E') as H1. pose proof (M' _ _ E) as H2. assert (Hl : List.length a = List.length a') by lia.
  rewrite E in E'. assert (a = a') as <-.
  { rewrite <- (firstn_all a). rewrite Hl at 1. assert (F : firstn (List.length a') (a ++ d ++ b) = firstn (List.length a') (a' ++ d ++ b')) by (rewrite E'; auto).
    rewrite firstn_app, (firstn_app _ a') in F. replace (List.length a' - List.length a) with 0 in F by lia. rewrite Nat.sub_diag, !firstn_O, !app_nil_r, firstn_all in F. auto. }
  split; auto. apply app_inv_head in E'. apply app_inv_head in E'. auto.
Qed.

(** A definition that is accepted *)
Lemma accepted_defines : forall s defs l s' o, inv s defs -> handles KDefinition l -> ~ In "["%char l -> cmd_definition_exec L fuel strtod s l = Done (Ok (Did s' o true)) ->
  exists f, (Forall calculator_operator (operators_of (f_body f)) -> inv s' (defs ++ [f])) /\ defines L fuel strtod s l s' f /\ o_id (f_op f) = 58 + List.length defs /\ (forall f', defines L fuel strtod s l s' f' -> f' = f) /\
    (exists rl, ss_funs s' = ss_funs s ++ [rl]) /\ ss_simp s' = ss_simp s /\ ss_pc s' = ss_pc s /\ o = [] /\
    ((forall sm, ss_simp s = Some sm -> own_operators sm) -> Forall calculator_operator (operators_of (f_body f))) /\
    reg_find (arith_registry ++ map f_op defs) (o_name (f_op f)) PFunction = None /\ sctx (ss_ctx s') (map f_op (defs ++ [f])).
Proof.
  intros s defs l s' o V H NB E. inversion H as [| |l' H1 H2 H3| | |]; subst. apply definition_spec in H3. unfold cmd_definition_check in H3.
  destruct (strstr l DEFINITION_OP) as [n|] eqn:St; [|discriminate H3]. pose proof (strstr_some _ _ _ St) as [_ Cut]. change (List.length DEFINITION_OP) with 1 in Cut.
  destruct (definition_cases L fuel strtod s defs l n V NB St) as [(s2 & R & _)|[(name & (s2 & f & R & V' & NF & FR & SR & PR) & ts & others & Tk & U & Sl)|[(R & _)|(c & op & ts & t & _ & _ & _ & R)]]].
  - rewrite E in R. discriminate R.
  - rewrite E in R. injection R as <- ->. exists f. destruct V' as (VS & Pf & VT & VI).
    assert (GC : G builtin_like (f_body f) <-> Forall calculator_operator (operators_of (f_body f))).
    { rewrite G_operators, Forall_forall. split; intros Hq op Io; apply calculator_builtin; auto. }
    split. { intro Fc. apply VI, GC, Fc. } destruct NF as (Nn & Id & Fr & (c0 & op0 & ts0 & opl & cs & k & S0 & N0 & P0 & E0 & Vn & Ep) & (tsr & t & s1 & Er & Fo & Inc & Es & _)).
    assert (Ts : ts0 = ts).
    { destruct (parse_input_tokens strtod c0 (proj1 (proj2 S0)) (firstn n l)) as (ts2 & T2 & _ & Pq). rewrite Pq in E0.
      destruct (parse_tokens strtod (view c0) ts2) as [q| |]; cbn [rbind] in E0; try discriminate E0. injection E0 as -> _.
      rewrite (session_tokens c0 (ss_ctx s) _ _ _ S0 (i_ctx _ _ V)), Tk in T2. congruence. }
    subst ts0.
    assert (W : words ts = o_name (f_op f) :: f_params f).
    { rewrite Nn, <- Ep. eapply left_words; eauto. }
    assert (Lk : ctx_lookup_op (ss_ctx s') (o_name (f_op f)) PFunction = Ok (Some (f_op f))).
    { rewrite (lookup_crep _ _ _ _ (proj1 VS)). apply (f_equal (@Ok _)).
      assert (If : In f (defs ++ [f])) by (apply in_or_app; right; left; auto).
      assert (Io : In (f_op f) (map f_op (defs ++ [f]))) by (apply in_map; auto). destruct (sctx_unique _ _ _ VS Io) as [U1 U2]. rewrite Pf in U1, U2.
      rewrite reg_find_app, U2. auto. }
    split. { exists (firstn n l), (skipn (n + 1) l), ts, tsr, t, s1. split; [exact Cut|]. split; [exact Er|]. split; [exact Es|]. split; [exact Tk|]. auto. }
    split; [exact Id|]. split.
    + intros f' (left & right & tsl & tsr' & t' & s1' & Cut' & Er' & Es' & Tk' & W' & Lk'). destruct (cut_fixed _ _ _ _ _ _ Cut Cut') as [<- <-].
      rewrite Er in Er'. injection Er' as <- <-. rewrite Es in Es'. injection Es' as _ Eb. unfold tokenize_with in Tk. rewrite Tk in Tk'. injection Tk' as <-.
      rewrite W in W'. injection W' as En Epar. rewrite <- En, Lk in Lk'. injection Lk' as Eo. destruct f, f'; cbn in *. congruence.
    + split; auto. split; auto. split; auto. split; auto. split; [|split; [rewrite Nn; exact Fr|exact VS]]. intro Own. apply GC, VT. intros sm Es0. apply own_tame. auto.
  - rewrite E in R. discriminate R.
  - exfalso. rewrite E in R. destruct R as [[_ R]|[[_ R]|[[_ R]|[_ R]]]]; discriminate R.
Qed.
Lemma rejected_keeps : forall s defs l s' o, inv s defs -> handles KDefinition l -> ~ In "["%char l -> cmd_definition_exec L fuel strtod s l = Done (Ok (Did s' o false)) ->
  inv s' defs /\ kept s s' /\ o = [SError].
Proof.
  intros s defs l s' o V H NB E. inversion H as [| |l' H1 H2 H3| | |]; subst. apply definition_spec in H3. unfold cmd_definition_check in H3.
  destruct (strstr l DEFINITION_OP) as [n|] eqn:St; [|discriminate H3].
  destruct (definition_cases L fuel strtod s defs l n V NB St) as [(s2 & R & V' & K)|[(name & (s2 & f & R & _) & _)|[(R & _)|(c & op & ts & t & _ & _ & _ & R)]]].
  - rewrite E in R. injection R as <- ->. auto.
  - rewrite E in R. discriminate R.
  - rewrite E in R. discriminate R.
  - exfalso. rewrite E in R. destruct R as [[_ R]|[[_ R]|[[_ R]|[_ R]]]]; discriminate R.
Qed.
Lemma not_just_clear : forall l, l <> str "clear" -> streqb CLEAR_COMMAND l = false.
Proof. intros l N. destruct (streqb CLEAR_COMMAND l) eqn:E; auto. apply streqb_eq in E. exfalso. apply N. symmetry. exact E. Qed.
Lemma mid_unique : forall c d1 f d2 e1 g e2, sctx c (map f_op (d1 ++ f :: d2)) -> d1 ++ f :: d2 = e1 ++ g :: e2 -> Forall fun_ok (d1 ++ f :: d2) -> o_name (f_op f) = o_name (f_op g) -> d1 = e1 /\ f = g /\ d2 = e2.
Proof.
  intros c d1 f d2 e1 g e2 S E FO N. rewrite Forall_forall in FO.
  assert (ND : NoDup (map (fun x => o_name (f_op x)) (d1 ++ f :: d2))).
  { assert (A : NoDup (map f_op (d1 ++ f :: d2))). { pose proof (NoDup_keyed _ _ (proj1 S)) as H. rewrite map_app in H. apply NoDup_tail in H. eapply NoDup_map_inv; eauto. }
    rewrite <- map_map. remember (map f_op (d1 ++ f :: d2)) as us eqn:Eu.
    assert (Pl : forall o, In o us -> o_place o = PFunction). { intros o I. rewrite Eu in I. apply in_map_iff in I. destruct I as (h & <- & Ih). apply (FO h Ih). }
    assert (U : forall o o', In o us -> In o' us -> o_name o = o_name o' -> o = o').
    { intros o o' I I' En. destruct (sctx_unique _ _ _ S I) as [A1 _]. destruct (sctx_unique _ _ _ S I') as [A2 _]. rewrite (Pl _ I) in A1. rewrite (Pl _ I') in A2. rewrite En in A1. congruence. }
    clear - A U. induction us as [|o us IH]; [constructor|]. inversion A; subst. cbn [map]. constructor.
    - intros I. apply in_map_iff in I. destruct I as (o' & E & I). apply H1. rewrite (U o o'); auto; [left; auto|right; auto].
    - apply IH; auto. intros a b Ia Ib. apply U; right; auto. }
  clear S FO. revert e1 E. induction d1 as [|x d1 IH]; intros [|y e1] E; cbn [app] in *.
  - injection E as <- <-. auto.
  - exfalso. injection E as <- ->. cbn [map] in ND. inversion ND; subst. apply H1. rewrite N. apply (in_map (fun z => o_name (f_op z))). apply in_or_app. right. left. auto.
  - exfalso. injection E as -> <-. cbn [map] in ND. inversion ND; subst. apply H1. rewrite <- N. apply (in_map (fun z => o_name (f_op z))). apply in_or_app. right. left. auto.
  - injection E as <- E. cbn [map] in ND. inversion ND; subst. destruct (IH H2 e1 E) as (-> & -> & ->). auto.
Qed.

Variable may_clear : list fundef -> cstr -> Prop.
Theorem reach_inv : forall s defs, session_of L fuel strtod files may_clear s defs -> inv s defs.
Proof.
  intros s defs R. induction R as [files0 path rand s E|s defs d l s' o f R IH H NB E D Fc|s defs d l s' o R IH H NB E|s defs d s' o b R IH E|s d1 f d2 d l s' o R IH H N Sk M E|s defs d l s' o R IH H N E|s defs k d l s' o b R IH H Ik E|s defs path s' o b R IH E].
  - eapply inv_start; eauto.
  - rewrite exec_definition in E by auto. destruct (accepted_defines _ _ _ _ _ IH H NB E) as (f0 & V & _ & _ & U & _). rewrite (U f D) in *. auto.
  - rewrite exec_definition in E by auto. apply (rejected_keeps _ _ _ _ _ IH H NB E).
  - rewrite exec_clear in E by apply clear_kind. destruct (clear_ok _ _ IH) as (s2 & C & V & _). unfold cmd_clear_exec in E. change (streqb CLEAR_COMMAND (str "clear")) with true in E. cbn iota in E.
    rewrite C in E. cbn [of_res sbind] in E. injection E as <- _ _. auto.
  - rewrite exec_clear in E by auto. destruct (clear_named _ _ l IH (not_just_clear _ N)) as [(e1 & g & e2 & s2 & Ed & En & Er & V & _)|[A Er]].
    + rewrite E in Er. injection Er as <- _. destruct (mid_unique _ _ _ _ _ _ _ (i_ctx _ _ IH) Ed (i_funs _ _ IH)) as (-> & _ & ->); auto. congruence.
    + rewrite E in Er. discriminate Er.
  - rewrite exec_clear in E by auto. destruct (clear_named _ _ l IH (not_just_clear _ N)) as [(e1 & g & e2 & s2 & Ed & En & Er & V & _)|[A Er]].
    + rewrite E in Er. discriminate Er.
    + rewrite E in Er. injection Er as <- _. auto.
  - destruct Ik as [<-|[<-|[<-|[]]]].
    + rewrite exec_help in E by auto. injection E as <- _ _. auto.
    + rewrite exec_table in E by auto. eapply inv_world; [|exact IH]. eapply (proj1 (table_both L fuel strtod s l)); eauto.
    + rewrite exec_evaluation in E by auto. eapply inv_world; [|exact IH]. eapply (proj1 (eval_both L fuel strtod s l)); eauto.
  - unfold load_simplification in E. apply of_res_ok in E. destruct E as ([| |sm n] & _ & E); injection E as <- _ _; constructor; apply IH.
Qed.
End Reach.
