(** Numeric expressions: they are simplified to their value (C64), and ans (C81). *)
From Coq Require Import List Ascii String NArith ZArith Bool Lia Arith.
From Coq.Floats Require Import SpecFloat.
From Verif Require Import M_Base M_StringUtil M_Trie M_Tree M_Context M_Tokenizer M_Parser M_TreeUtil M_Match M_RuleParsing M_ArithCtx
  M_Double M_Eval M_Simplify M_Session M_Strtod
  S_Util S_Engine S_Parse S_Tree S_Match S_Rules S_Session S_Load S_World S_Answer L_StringUtil L_Trie L_Tokenizer L_Context P_Context L_ArithCtx L_SetUp L_Lex
  L_Tree L_Match L_MatchRule P_Tree P_Parse L_Expand L_SessionCtx L_OpsKept L_Session L_SessionDef L_SessionCmd L_Reach L_SessionFun L_SessionEx L_Agree S_Simplify L_SimpCheck P_Session P_Simplify P_World.
Import ListNotations.
Open Scope string_scope.
Open Scope list_scope.
Open Scope nat_scope.
Open Scope res_scope.

(** ** Numbers match no shipped rule *)
Definition opaque (p : pattern) : bool :=
  match pt_tree p with
  | NOp op cs _ => negb (o_id op =? 12) || match cs with [NOp _ _ _] => true | _ => false end
  | _ => false
  end.
Lemma const_unmatched : forall ck p v k, opaque p = true -> get_matching ck p (NConst v k) = Ok None.
Proof. intros ck p v k H. unfold opaque in H. unfold get_matching, get_all_matchings. destruct (pt_tree p) as [| |op cs j]; try discriminate H. reflexivity. Qed.
Lemma minus_unmatched : forall ck p m v k j, o_id m = 12 -> opaque p = true -> get_matching ck p (NOp m [NConst v k] j) = Ok None.
Proof.
  intros ck p m v k j M H. unfold opaque in H. unfold get_matching, get_all_matchings. destruct (pt_tree p) as [| |op cs q]; try discriminate H. cbn [extend_matching nl_size nl_nodes]. cbn [N.eqb Pos.eqb vget nth_error rbind]. rewrite M.
  destruct (o_id op =? 12); [|reflexivity]. cbn [negb orb] in H. destruct cs as [|[| |o c i] [|]]; try discriminate H. reflexivity.
Qed.
(** A number, possibly behind a minus *)
Definition numeric (u : node) : Prop := (exists v k, u = NConst v k) \/ (exists m v k j, u = NOp m [NConst v k] j /\ o_id m = 12).
Lemma numeric_unmatched : forall ck p u, numeric u -> opaque p = true -> find_matching ck p u = Ok None.
Proof.
  intros ck p u [(v & k & ->)|(m & v & k & j & -> & M)] H; cbn [find_matching]; rewrite ?(const_unmatched ck p v k H); [reflexivity|]. rewrite (minus_unmatched ck p m v k j M H). reflexivity.
Qed.
Lemma numeric_first : forall ck rs u, numeric u -> forallb (fun r => opaque (r_pat r)) rs = true -> apply_first ck u rs = Ok None.
Proof.
  intros ck rs u N. induction rs as [|r rs IH]; intros H; [reflexivity|]. cbn [forallb] in H. apply andb_true_iff in H. destruct H as [A B]. cbn [apply_first]. unfold apply_rule. rewrite (numeric_unmatched ck _ u N A). cbn [rbind]. auto.
Qed.
Section Number.
Variable L : libm.
Variable n : nat.
Variables g pc : ctx.
Variable m : operator.
Hypothesis Mg : minus_op g = Ok m.
Hypothesis Mi : o_id m = 12.
Lemma numeric_section : forall w u rs, numeric u -> forallb (fun r => opaque (r_pat r)) rs = true ->
  apply_simplification L (S n) g pc w u rs = oret w (replace_negative_consts m u).
Proof.
  intros w u rs N H. unfold apply_simplification. cbn [simplification_loop]. unfold apply_ruleset. cbn [apply_ruleset_loop]. rewrite (numeric_first _ _ _ N H). cbn [rbind lift obind oret]. rewrite Mg. reflexivity.
Qed.
Lemma fabs_not : forall v, dltb (fabs v) d0 = false.
Proof. intros [s|s| |s a e]; try reflexivity; destruct s; reflexivity. Qed.
Lemma number_reduced : forall w t w1 v, evals (arith_listener L (S n)) (Done (Ok w)) t (Done (Ok w1)) (RVal v) -> reduce_constants L (S n) w t = oret w1 (NConst v (get_token_index t), None).
Proof.
  intros w t w1 v E. pose proof (evals_closed _ _ _ _ _ _ E) as C. apply count_zero in C. apply C28_reduce_is_evaluation in E. unfold reduce_constants.
  assert (X : tree_reduce_constant_subtrees (arith_listener L (S n)) (Done (Ok w)) t = (Done (Ok w1), (NConst v (get_token_index t), None))); [|rewrite X; reflexivity].
  destruct t; cbn [tree_reduce_constant_subtrees]; rewrite C, E; reflexivity.
Qed.
Definition tidy (u : node) : Prop := numeric u /\ replace_negative_consts m u = u.
Lemma numeric_tidy : forall u, numeric u -> (forall m' v k j, u = NOp m' [NConst v k] j -> dltb v d0 = false) -> tidy (replace_negative_consts m u).
Proof.
  intros u [(v & k & ->)|(m' & v & k & j & -> & M)] H; cbn [replace_negative_consts map].
  - destruct (dltb v d0) eqn:D.
    + split; [right; exists m, (fabs v), k, k; auto|]. cbn [replace_negative_consts map]. rewrite fabs_not. reflexivity.
    + split; [left; eauto|]. cbn [replace_negative_consts]. rewrite D. reflexivity.
  - rewrite (H _ _ _ _ eq_refl). split; [right; exists m', v, k, j; auto|]. cbn [replace_negative_consts map]. rewrite (H _ _ _ _ eq_refl). reflexivity.
Qed.
Variable s : simp.
Hypothesis Op : forallb (forallb (fun r => opaque (r_pat r))) (s_rulesets s) = true.
Lemma section_opaque : forall i, forallb (fun r => opaque (r_pat r)) (nth i (s_rulesets s) []) = true.
Proof. intros i. destruct (nth_in_or_default i (s_rulesets s) []) as [I|E]; [rewrite forallb_forall in Op; auto|rewrite E; reflexivity]. Qed.
Lemma numeric_passes : forall w u, numeric u -> tidy (replace_negative_consts m u) -> simplify_without_derivative L (S n) g pc s w u = oret w (replace_negative_consts m u).
Proof.
  intros w u N [T1 T2]. unfold simplify_without_derivative. cbn [fold_left]. cbn [oret obind].
  rewrite (numeric_section w u _ N (section_opaque 0)). do 5 (cbn [oret obind]; rewrite (numeric_section w _ _ T1 (section_opaque _)), T2). reflexivity.
Qed.
Variable before : pattern.
Variables (deriv : operator) (dargs : list node) (dk : nat).
Hypothesis Sb : s_before s = Some before.
Hypothesis Ob : opaque before = true.
Hypothesis Om : opaque (s_malformed s) = true.
Hypothesis Sa : s_after s = Some (NOp deriv dargs dk).
Hypothesis Id : o_id deriv <> 12.
Lemma numeric_derivatives : forall w u, tidy u -> apply_derivatives L (S n) g pc s w u = oret w (u, None).
Proof.
  intros w u [N T]. unfold apply_derivatives. cbn [shorthand_loop]. rewrite Sb, (numeric_unmatched _ _ u N Ob). cbn [lift oret obind]. rewrite (numeric_unmatched _ _ u N Om). cbn [lift].
  rewrite (numeric_section w u _ N (section_opaque 1)), T. cbn [oret obind]. rewrite Sa.
  assert (F : find_op u deriv = None). { destruct N as [(v & k & ->)|(m' & v & k & j & -> & M)]; [reflexivity|]. cbn [find_op]. rewrite M. destruct (Nat.eqb_spec 12 (o_id deriv)); [congruence|reflexivity]. }
  rewrite F. reflexivity.
Qed.
Lemma neg_abs : forall v, dltb v d0 = true -> dneg (fabs v) = v.
Proof. intros [b|b| |b a e] H; try discriminate H; destruct b; try discriminate H; reflexivity. Qed.
Theorem number_simplified : forall w t w1 v, evals (arith_listener L (S n)) (Done (Ok w)) t (Done (Ok w1)) (RVal v) ->
  simplify L (S n) g pc (Some s) w t = Done (Ok (w1, (replace_negative_consts m (NConst v (get_token_index t)), None))).
Proof.
  intros w t w1 v E. unfold simplify. rewrite (number_reduced _ _ _ _ E). cbn [oret obind fst].
  set (c := NConst v (get_token_index t)). assert (N : numeric c) by (left; unfold c; eauto). assert (T : tidy (replace_negative_consts m c)) by (apply numeric_tidy; [exact N|discriminate]).
  rewrite (numeric_passes _ _ N T). cbn [oret obind]. rewrite (numeric_derivatives _ _ T). cbn [oret obind]. rewrite (numeric_passes _ _ (proj1 T)); [|rewrite (proj2 T); exact T]. rewrite (proj2 T). cbn [oret obind].
  assert (R : reduce_constants L (S n) w1 (replace_negative_consts m c) = oret w1 (c, None)).
  { subst c. cbn [replace_negative_consts]. destruct (dltb v d0) eqn:D.
    - pose proof (number_reduced w1 (NOp m [NConst (fabs v) (get_token_index t)] (get_token_index t)) w1 (dneg (fabs v))) as X. rewrite (neg_abs _ D) in X. cbn [get_token_index] in X. apply X.
      eapply ev_apply; [eapply ea_cons; [apply ev_const|apply ea_nil]|]. unfold arith_listener, arith_op_evaluate. rewrite Mi. cbn [with1 ok]. rewrite (neg_abs _ D). reflexivity.
    - exact (number_reduced w1 (NConst v (get_token_index t)) w1 v (ev_const _ _ _ _)). }
  rewrite R. cbn [oret obind]. rewrite Mg. reflexivity.
Qed.
End Number.

(** ** C64: expressions that have a value *)
Lemma the_minus : match minus_op the_arith_ctx with Ok m => (o_id m =? 12) && streqb (o_name m) (str "-") && placement_eqb (o_place m) PPrefix | _ => false end = true.
Proof. vm_compute. reflexivity. Qed.
Lemma minus_is : exists m, minus_op the_arith_ctx = Ok m /\ o_id m = 12 /\ o_name m = str "-" /\ o_place m = PPrefix.
Proof.
  pose proof the_minus as H. revert H. generalize (minus_op the_arith_ctx). intros [m| |] H; try discriminate H. exists m. apply andb_true_iff in H. destruct H as [H C]. apply andb_true_iff in H. destruct H as [A B].
  apply Nat.eqb_eq in A. apply L_Trie.streqb_eq in B. destruct (o_place m); try discriminate C. auto.
Qed.
Definition deaf (s : simp) : bool :=
  forallb (forallb (fun r => opaque (r_pat r))) (s_rulesets s) && match s_before s with Some p => opaque p | None => false end && opaque (s_malformed s) &&
  match s_after s with Some (NOp op _ _) => negb (o_id op =? 12) | _ => false end.
Lemma shipped_deaf : match the_simp with Some s => deaf s | None => false end = true.
Proof. vm_compute. reflexivity. Qed.
Lemma deaf_simplified : forall L n g pc m s w t w1 v, minus_op g = Ok m -> o_id m = 12 -> deaf s = true -> evals (arith_listener L (S n)) (Done (Ok w)) t (Done (Ok w1)) (RVal v) ->
  simplify L (S n) g pc (Some s) w t = Done (Ok (w1, (replace_negative_consts m (NConst v (get_token_index t)), None))).
Proof.
  intros L n g pc m s w t w1 v Mg Mi D E. unfold deaf in D. apply andb_true_iff in D. destruct D as [D D4]. apply andb_true_iff in D. destruct D as [D D3]. apply andb_true_iff in D. destruct D as [D1 D2].
  destruct (s_before s) as [b|] eqn:Sb; [|discriminate D2]. destruct (s_after s) as [[| |op cs k]|] eqn:Sa; try discriminate D4. apply negb_true_iff, Nat.eqb_neq in D4.
  exact (number_simplified L n g pc m Mg Mi s D1 b op cs k Sb D2 D3 Sa D4 w t w1 v E).
Qed.
(** The display of a number *)
Lemma displayed : forall m v k, o_name m = str "-" -> o_place m = PPrefix -> displays (replace_negative_consts m (NConst v k)) v.
Proof. intros m v k N P. cbn [replace_negative_consts]. destruct (dltb v d0) eqn:D; [right; split; [exact D|]; exists m, k, k; auto|left; eauto]. Qed.
Theorem C64_values_partial : forall L fuel w t w1 v, evals (arith_listener L (S fuel)) (Done (Ok w)) t (Done (Ok w1)) (RVal v) ->
  exists u, simplify L (S fuel) the_arith_ctx the_prop_ctx the_simp w t = Done (Ok (w1, (u, None))) /\ displays u v.
Proof.
  intros L fuel w t w1 v E. destruct minus_is as (m & Mg & Mi & Mn & Mp). pose proof shipped_deaf as D. revert D. generalize the_simp. intros [s|] D; [|discriminate D].
  eexists. split; [exact (deaf_simplified L fuel _ _ m s w t w1 v Mg Mi D E)|]. apply displayed; auto.
Qed.

(** ** C81 *)
Section Ans.
Variable L : libm.
Variable fuel : nat.
Variable files : cstr -> option (list ascii).
Variable may_clear : list fundef -> cstr -> Prop.
(** What a line that calls no function of the user does if it has a value *)
Theorem C81_numbers : forall s defs d l ts t w1 v, session_of L (S fuel) strtod files may_clear s defs -> handles KEvaluation l ->
  parse_input strtod (ss_ctx s) l = Ok (ts, PTree t) -> Forall calculator_operator (operators_of t) ->
  evals (arith_listener L (S fuel)) (Done (Ok (ss_world s))) t (Done (Ok w1)) (RVal v) ->
  (ss_simp s = None -> exists k, exec_command L (S fuel) strtod files (S d) s l = Done (Ok (Did (with_past s (entered (Some v) w1)) [SResult (NConst v k)] true))) /\
  (ss_simp s = the_simp -> exists u, displays u v /\
     exec_command L (S fuel) strtod files (S d) s l = Done (Ok (Did (with_past s (entered (if dltb v d0 then None else Some v) w1)) [SResult u] true))).
Proof.
  intros s defs d l ts t w1 v R H P C E. pose proof (reach_inv _ _ _ _ _ _ _ R) as V. rewrite exec_evaluation by exact H. unfold cmd_evaluation_exec, arith_parse, arith_parse_raw. rewrite P. cbn [rbind of_res sbind].
  assert (B : all_ops (fun op _ => builtin_like op) t). { apply G_operators. intros op I. apply calculator_builtin. rewrite Forall_forall in C. auto. }
  unfold arith_simplify. rewrite (nothing_called (S fuel) _ s defs t V B). change (apply_ruleset (S fuel) (fun _ => Ub) [] 0 t) with (@Ok (option (node * nat)) (Some (t, 0))). cbn [of_res sbind].
  destruct minus_is as (m & Mg & Mi & Mn & Mp). rewrite <- (session_minus _ _ (i_ctx _ _ V)) in Mg. split; intros Si; rewrite Si.
  - unfold simplify. rewrite (number_reduced L fuel _ _ _ _ E). eexists. reflexivity.
  - pose proof shipped_deaf as D. clear Si. revert D. generalize the_simp. intros [sm|] D; [|discriminate D]. rewrite (deaf_simplified L fuel _ _ m sm _ t w1 v Mg Mi D E). cbn [sbind].
    eexists. split; [apply (displayed m v (get_token_index t) Mn Mp)|]. cbn [replace_negative_consts]. destruct (dltb v d0); reflexivity.
Qed.
End Ans.
Lemma ans_free : reg_find arith_registry (str "ans") PFunction <> None. Proof. vm_compute. discriminate. Qed.
Lemma ans_unclaimed : forall s defs, inv s defs -> ~ mentions defs [str "ans"].
Proof.
  intros s defs V (f & If & [E|[]]). pose proof (i_funs _ _ V) as F. rewrite Forall_forall in F. destruct (F f If) as (Pl & _). destruct (sctx_unique _ _ _ (i_ctx _ _ V) (in_map f_op _ _ If)) as [_ U]. rewrite Pl, <- E in U. exact (ans_free U).
Qed.
Definition is_ans (r : res (list cstr * pout)) : bool := match r with Ok (_, PTree (NOp op [] _)) => (o_id op =? 57) && match nth_error arith_ops (o_id op) with Some b => streqb (o_name b) (o_name op) && placement_eqb (o_place b) (o_place op) | None => false end | _ => false end.
Lemma ans_parsed : is_ans (parse_input strtod the_arith_ctx (str "ans")) = true. Proof. vm_compute. reflexivity. Qed.
Lemma ans_words : words_of (str "ans") [str "ans"]. Proof. vm_compute. reflexivity. Qed.
Lemma is_ans_ok : forall r, is_ans r = true -> exists ts op k, r = Ok (ts, PTree (NOp op [] k)) /\ o_id op = 57 /\ calculator_operator op.
Proof.
  intros [[ts [[| |op [|] k]| |]]| |] H; try discriminate H. exists ts, op, k. split; [reflexivity|]. unfold is_ans in H. apply andb_true_iff in H. destruct H as [A B]. apply Nat.eqb_eq in A. split; [exact A|].
  unfold calculator_operator. destruct (nth_error arith_ops (o_id op)) as [b|]; [|discriminate B]. exists b. apply andb_true_iff in B. destruct B as [B C]. apply L_Trie.streqb_eq in B. repeat split; auto. destruct (o_place b), (o_place op); try discriminate C; reflexivity.
Qed.
Lemma ans_line : handles KEvaluation (str "ans"). Proof. exact (kind_of_ok (str "ans")). Qed.
Lemma last_entered : forall h v, history_get (h ++ [v]) 0 = Some v.
Proof. 
  intros h v. unfold history_get. rewrite app_length. cbn [List.length]. destruct (Z.leb_spec (Z.of_nat (List.length h + 1)) 0); [lia|].
  rewrite nth_error_app2 by lia. replace (List.length h + 1 - 1 - Z.to_nat 0 - List.length h) with 0 by lia. reflexivity.
 Qed.
(** The line ans shows the result entered last. *)
Lemma ans_shows : forall L fuel files may_clear s defs d w v, session_of L (S fuel) strtod files may_clear (with_past s (entered (Some v) w)) defs ->
  ss_simp s = None \/ (ss_simp s = the_simp /\ dltb v d0 = false) ->
  exists s2 k, exec_command L (S fuel) strtod files (S d) (with_past s (entered (Some v) w)) (str "ans") = Done (Ok (Did s2 [SResult (NConst v k)] true)).
Proof.
  intros L fuel files mc s defs d w v R C. pose proof (reach_inv _ _ _ _ _ _ _ R) as V.
  destruct (is_ans_ok _ ans_parsed) as (ts & op & k & P & Oi & Oc). rewrite <- (session_reads strtod _ defs (str "ans") _ (i_ctx _ _ V) ans_words (ans_unclaimed _ _ V)) in P.
  assert (E : evals (arith_listener L (S fuel)) (Done (Ok (ss_world (with_past s (entered (Some v) w))))) (NOp op [] k) (Done (Ok (entered (Some v) w))) (RVal v)).
  { eapply ev_apply; [constructor|]. unfold arith_listener. cbn [with_past ss_world entered]. unfold arith_op_evaluate. rewrite Oi. unfold from_history, history_add. cbn [w_history]. rewrite last_entered. reflexivity. }
  destruct (C81_numbers L fuel files mc _ defs d (str "ans") ts _ _ v R ans_line P (Forall_cons _ Oc (Forall_nil _)) E) as [N F]. cbn [with_past ss_simp] in N, F.
  destruct C as [C|[C Nn]].
  - destruct (N C) as (k1 & X). eauto.
  - destruct (F C) as (u & [(k1 & ->)|[D _]] & X); [eauto|congruence].
Qed.
(** Without rules, or if the result is not negative, ans is the result of the line before. *)
Theorem C81_ans_partial : forall L fuel files may_clear s defs d l ts t w1 v, session_of L (S fuel) strtod files may_clear s defs -> handles KEvaluation l ->
  parse_input strtod (ss_ctx s) l = Ok (ts, PTree t) -> Forall calculator_operator (operators_of t) ->
  evals (arith_listener L (S fuel)) (Done (Ok (ss_world s))) t (Done (Ok w1)) (RVal v) ->
  ss_simp s = None \/ (ss_simp s = the_simp /\ dltb v d0 = false) ->
  exists s1 s2 k1 k2, exec_command L (S fuel) strtod files (S d) s l = Done (Ok (Did s1 [SResult (NConst v k1)] true)) /\
    exec_command L (S fuel) strtod files (S d) s1 (str "ans") = Done (Ok (Did s2 [SResult (NConst v k2)] true)).
Proof.
  intros L fuel files mc s defs d l ts t w1 v R H P C E Q. destruct (C81_numbers L fuel files mc s defs d l ts t w1 v R H P C E) as [N F].
  assert (X : exists k1, exec_command L (S fuel) strtod files (S d) s l = Done (Ok (Did (with_past s (entered (Some v) w1)) [SResult (NConst v k1)] true))).
  { destruct Q as [Q|[Q Nn]]; [destruct (N Q) as (k & X); eauto|]. destruct (F Q) as (u & D & X). rewrite Nn in X. destruct D as [(k & ->)|[D _]]; [eauto|congruence]. }
  destruct X as (k1 & X). assert (R1 : session_of L (S fuel) strtod files mc (with_past s (entered (Some v) w1)) defs).
  { eapply so_other; [exact R|exact H| |exact X]. cbn. auto. }
  destruct (ans_shows L fuel files mc s defs d w1 v R1 Q) as (s2 & k2 & Y). exists (with_past s (entered (Some v) w1)), s2, k1, k2. split; [exact X|exact Y].
Qed.

(** ** Cases *)
Definition calcb (op : operator) : bool :=
  match nth_error arith_ops (o_id op) with Some b => streqb (o_name b) (o_name op) && placement_eqb (o_place b) (o_place op) | None => false end.
Lemma calcb_ok : forall op, calcb op = true -> calculator_operator op.
Proof.
  intros op H. unfold calcb in H. unfold calculator_operator. destruct (nth_error arith_ops (o_id op)) as [b|]; [|discriminate H]. exists b. apply andb_true_iff in H. destruct H as [B C].
  apply L_Trie.streqb_eq in B. repeat split; auto. destruct (o_place b), (o_place op); try discriminate C; reflexivity.
Qed.
Definition has_value (fuel : nat) (s : session) (l : string) (v : double) : bool :=
  match parse_input strtod (ss_ctx s) (str l) with
  | Ok (_, PTree t) => forallb calcb (operators_of t) &&
      match tree_reduce (arith_listener no_libm fuel) (Done (Ok (ss_world s))) t with (Done (Ok _), RVal v') => same_double v v' | _ => false end
  | _ => false
  end.
Lemma has_value_ok : forall fuel s l v, has_value fuel s l v = true -> exists ts t w1, parse_input strtod (ss_ctx s) (str l) = Ok (ts, PTree t) /\
  Forall calculator_operator (operators_of t) /\ evals (arith_listener no_libm fuel) (Done (Ok (ss_world s))) t (Done (Ok w1)) (RVal v).
Proof.
  intros fuel s l v H. unfold has_value in H. destruct (parse_input strtod (ss_ctx s) (str l)) as [[ts [t| |]]| |]; try discriminate H. apply andb_true_iff in H. destruct H as [A B].
  destruct (tree_reduce (arith_listener no_libm fuel) (Done (Ok (ss_world s))) t) as [[[w1| |]|] [v'|]] eqn:E; try discriminate B. apply same_double_ok in B. subst v'. exists ts, t, w1. split; [reflexivity|]. split.
  - rewrite forallb_forall in A. apply Forall_forall. intros op I. apply calcb_ok. auto.
  - apply reduce_sound. exact E.
Qed.
Notation C81_session := (full ["f(x)=x^2"; "2+3"]).
Lemma C81_lives : lives C81_session = true. Proof. vm_compute. reflexivity. Qed.
Lemma C81_rules : ss_simp (state C81_session) = the_simp. Proof. vm_compute. reflexivity. Qed.
Lemma C81_minus : has_value 300 (state C81_session) "1-4" (of_Z (-3)) = true. Proof. vm_compute. reflexivity. Qed.
Lemma C81_plus : has_value 300 (state C81_session) "ans*4+1" (of_Z 21) = true. Proof. vm_compute. reflexivity. Qed.
Lemma C81_plus_sign : dltb (of_Z 21) d0 = false. Proof. vm_compute. reflexivity. Qed.
(** After 2+3 the line ans*4+1 is 21, and so is ans then. *)
Example C81_case : exists s1 s2 k1 k2, exec_command no_libm 300 strtod shipped_files 1 (state C81_session) (str "ans*4+1") = Done (Ok (Did s1 [SResult (NConst (of_Z 21) k1)] true)) /\
  exec_command no_libm 300 strtod shipped_files 1 s1 (str "ans") = Done (Ok (Did s2 [SResult (NConst (of_Z 21) k2)] true)).
Proof.
  destruct (has_value_ok _ _ _ _ C81_plus) as (ts & t & w1 & P & C & E).
  exact (C81_ans_partial no_libm 299 shipped_files youngest _ _ 0 _ ts t w1 _ (full_reached _ C81_lives) (kind_of_ok (str "ans*4+1")) P C E (or_intror (conj C81_rules C81_plus_sign))).
Qed.
(** But a negative result is not entered into the history if there are rules: after 2+3 and 1-4, which is -3, ans is 5. *)
Definition then_ans (v : double) (r : step cmdres) : bool :=
  match r with
  | Done (Ok (Did s1 _ true)) => match exec_command no_libm 300 strtod shipped_files 1 s1 (str "ans") with Done (Ok (Did _ [SResult (NConst v' _)] true)) => same_double v v' | _ => false end
  | _ => false
  end.
Lemma C81_then : then_ans (of_Z 5) (exec_command no_libm 300 strtod shipped_files 1 (state C81_session) (str "1-4")) = true. Proof. vm_compute. reflexivity. Qed.
Lemma five_not : forall k, displays (NConst (of_Z 5) k) (of_Z (-3)) -> False.
Proof. intros k [(k1 & E)|(_ & m & k1 & k2 & E & _)]; [|discriminate E]. injection E as E _. vm_compute in E. discriminate E. Qed.
Theorem C81_ans_refuted :
  ~ (forall L fuel files may_clear s defs d l ts t w1 v, session_of L (S fuel) strtod files may_clear s defs -> handles KEvaluation l ->
     parse_input strtod (ss_ctx s) l = Ok (ts, PTree t) -> Forall calculator_operator (operators_of t) ->
     evals (arith_listener L (S fuel)) (Done (Ok (ss_world s))) t (Done (Ok w1)) (RVal v) -> ss_simp s = None \/ ss_simp s = the_simp ->
     forall s1 o1, exec_command L (S fuel) strtod files (S d) s l = Done (Ok (Did s1 o1 true)) ->
     exists s2 u, exec_command L (S fuel) strtod files (S d) s1 (str "ans") = Done (Ok (Did s2 [SResult u] true)) /\ displays u v).
Proof.
  intros H. destruct (has_value_ok _ _ _ _ C81_minus) as (ts & t & w1 & P & C & E).
  specialize (H no_libm 299 shipped_files youngest _ _ 0 _ ts t w1 _ (full_reached _ C81_lives) (kind_of_ok (str "1-4")) P C E (or_intror C81_rules)).
  pose proof C81_then as T. revert H T. clear P C E. change (S 299) with 300. generalize (exec_command no_libm 300 strtod shipped_files 1 (state C81_session) (str "1-4")). intros r H T.
  destruct r as [[[s1 o1 [|]|]| |]|]; try discriminate T. destruct (H s1 o1 eq_refl) as (s2 & u & X & D). unfold then_ans in T. rewrite X in T.
  destruct u as [v' k| |]; try discriminate T. apply same_double_ok in T. subst v'. exact (five_not _ D).
Qed.
Print Assumptions C64_values_partial.
Print Assumptions C81_numbers.
Print Assumptions C81_ans_partial.
Print Assumptions C81_ans_refuted.
