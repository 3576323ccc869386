(** What the help command prints (C76). *)
From Coq Require Import Reals.
From Flocq Require Import Core.
From Coq Require Import List Ascii String NArith ZArith Bool Lia Arith.
From Coq.Floats Require Import SpecFloat.
From Verif Require Import M_Base M_StringUtil M_LinkedList M_Trie M_Tree M_Context M_Tokenizer M_Parser M_Printer M_Printf M_TreeUtil M_Match M_RuleParsing M_ArithCtx
  M_Double M_Eval M_Simplify M_Session M_Strtod M_Table M_TableOut M_Help
  S_Util S_Engine S_Parse S_Tree S_Match S_Session S_TableCmd S_Print S_Printf S_Eval S_Table S_TableApi S_Plain S_TableOut S_Help
  L_StringUtil L_LinkedList L_Tree P_Tree L_Context L_ArithCtx L_SetUp P_Parse L_Expand L_SessionCtx L_OpsKept L_Session L_SessionCmd L_SessionDef L_Reach L_SessionEx P_Session P_Simplify L_ParserInv L_Print L_PrintLex L_PrintParse P_Print P_TableCmd P_TableApi
  L_Float L_TableWf L_NamesKept L_TableOut P_TableOut P_Plain P_Table.
Import ListNotations.
Open Scope string_scope.
Open Scope list_scope.
Open Scope nat_scope.
Open Scope res_scope.
Notation solid := L_TableOut.solid.

(** ** Operators in lines *)
Definition plain_op (op : operator) : Prop := Forall (fun c => c <> S_Table.ESC /\ c <> LF) (usage op) /\ op_text op = usage op.
Lemma op_shows : forall op, plain_op op -> shows (fst (print_op op)) (usage op ++ str " ").
Proof.
  intros op [F E] b. unfold print_op. cbn [fst]. rewrite E. assert (X : forall s, seen_text false (OP_COLOR ++ s) = seen_text false s) by reflexivity. rewrite <- !app_assoc, X. rewrite (shows_plain _ F). reflexivity.
Qed.
Lemma tinted_plain : forall on s b, Forall (fun c => c <> S_Table.ESC /\ c <> LF) s -> tinted on None (s ++ b) = with_tint on s ++ tinted on None b.
Proof.
  intros on. induction s as [|c s IH]; intros b F; [reflexivity|]. inversion F as [|? ? [N _] F']; subst. cbn [app tinted with_tint map]. destruct (Ascii.eqb_spec c "027"%char) as [->|_]; [exfalso; apply N; reflexivity|].
  fold (with_tint on s). rewrite (IH b F'). reflexivity.
Qed.
Lemma op_tinted : forall op, plain_op op -> forall b, tinted false None (fst (print_op op) ++ b) = with_tint true (usage op) ++ with_tint false (str " ") ++ tinted false None b.
Proof.
  intros op [F E] b. unfold print_op. cbn [fst]. rewrite E. assert (X : forall s, tinted false None (OP_COLOR ++ s) = tinted true None s) by reflexivity. rewrite <- !app_assoc, X. rewrite (tinted_plain _ _ _ F). reflexivity.
Qed.
Lemma tinted_cons : forall op l, tinted_line (op :: l) = with_tint true (usage op) ++ with_tint false (str " ") ++ tinted_line l.
Proof. intros. unfold tinted_line. cbn [flat_map]. rewrite <- app_assoc. reflexivity. Qed.
Fixpoint broken_from (used : nat) (lines : list (list operator)) : Prop :=
  match lines with
  | [] => False
  | [l] => used + List.length (in_a_line l) < 80
  | l :: lines' => 80 <= used + List.length (in_a_line l) /\ used + List.length (in_a_line (removelast l)) < 80 /\ broken_from 0 lines'
  end.
Lemma broken_0 : forall lines, broken_from 0 lines -> broken lines.
Proof. induction lines as [|l [|l' ls] IH]; auto. intros (A & B & C). split; [exact A|]. split; [exact B|]. apply IH. exact C. Qed.
Lemma line_cons : forall op l, in_a_line (op :: l) = usage op ++ str " " ++ in_a_line l.
Proof. intros. unfold in_a_line. cbn [flat_map]. rewrite <- app_assoc. reflexivity. Qed.
Lemma wrapped : forall ops used, Forall plain_op ops -> used < 80 -> exists lines, List.concat lines = ops /\ broken_from used lines /\ seen_text false (print_ops (80 - Z.of_nat used) ops) = lines_text lines /\ tinted false None (print_ops (80 - Z.of_nat used) ops) = tinted_lines lines.
Proof.
  induction ops as [|op ops IH]; intros used F U.
  - exists [[]]. split; [reflexivity|]. split; [cbn [broken_from in_a_line flat_map List.length]; lia|split; reflexivity].
  - inversion F as [|? ? P F']; subst. set (n := List.length (usage op) + 1). assert (Sn : snd (print_op op) = Z.of_nat n). { unfold print_op. cbn [snd]. rewrite (proj2 P). unfold n. lia. }
    pose proof (op_shows op P) as So. pose proof (op_tinted op P) as St. cbn [print_ops]. destruct (print_op op) as [text m]. cbn [fst snd] in *. subst m.
    assert (Ln : forall l, List.length (in_a_line (op :: l)) = n + List.length (in_a_line l)). { intros l. rewrite line_cons, !app_length. unfold n. cbn [str list_ascii_of_string List.length]. lia. }
    destruct (Z.leb_spec (80 - Z.of_nat used - Z.of_nat n) 0) as [W|W].
    + destruct (IH 0 F' (Nat.lt_0_succ _)) as (lines & C & B & T & T'). exists ([op] :: lines). split; [cbn [List.concat app]; congruence|]. assert (NL : lines <> []) by (intros ->; exact B).
      split. { destruct lines as [|l lines]; [congruence|]. split; [rewrite Ln; cbn [in_a_line flat_map List.length]; lia|]. split; [cbn [removelast in_a_line flat_map List.length]; lia|exact B]. }
      split.
      * rewrite So. change (seen_text false ([LF] ++ print_ops TTY_WIDTH ops)) with ([LF] ++ seen_text false (print_ops (80 - Z.of_nat 0) ops)). rewrite T. destruct lines as [|l lines]; [congruence|]. cbn [lines_text]. rewrite line_cons. cbn [in_a_line flat_map]. rewrite app_nil_r. reflexivity.
      * rewrite St. change (tinted false None ([LF] ++ print_ops TTY_WIDTH ops)) with (with_tint false [LF] ++ tinted false None (print_ops (80 - Z.of_nat 0) ops)). rewrite T'. destruct lines as [|l lines]; [congruence|]. cbn [tinted_lines]. rewrite tinted_cons. cbn [tinted_line flat_map]. rewrite app_nil_r, <- !app_assoc. reflexivity.
    + destruct (IH (used + n) F') as (lines & C & B & T & T'); [lia|]. destruct lines as [|l lines]; [destruct B|]. exists ((op :: l) :: lines). split; [cbn [List.concat app] in *; congruence|].
      split. { destruct lines as [|l' lines]; [cbn [broken_from] in *; rewrite Ln; lia|]. destruct B as (B1 & B2 & B3). split; [rewrite Ln; lia|]. split; [|exact B3]. destruct l as [|o l]; [cbn [removelast in_a_line flat_map List.length]; lia|]. change (removelast (op :: o :: l)) with (op :: removelast (o :: l)). rewrite Ln. lia. }
      replace (80 - Z.of_nat used - Z.of_nat n)%Z with (80 - Z.of_nat (used + n))%Z by lia. split.
      * rewrite So, T. destruct lines as [|l' lines]; cbn [lines_text]; rewrite line_cons, <- !app_assoc; reflexivity.
      * rewrite St, T'. destruct lines as [|l' lines]; cbn [tinted_lines]; rewrite tinted_cons, <- ?app_assoc; reflexivity.
Qed.
Lemma wrapped_lines : forall ops, Forall plain_op ops -> shows_operators ops (print_ops TTY_WIDTH ops).
Proof. intros ops F. destruct (wrapped ops 0 F) as (lines & C & B & T); [lia|]. exists lines. split; [exact C|]. split; [exact (broken_0 _ B)|exact T]. Qed.

(** *** The operators of a context *)
Lemma walk_seg : forall (m : heap operator) xs p k, L_LinkedList.seg (h_map m) p xs None -> walk m (hdp xs None) k = Ok (map snd (firstn k xs)).
Proof.
  intros m. induction xs as [|[a x] xs IH]; intros p k S.
  - destruct k; reflexivity.
  - destruct S as [E S]. destruct k as [|k]; [reflexivity|]. cbn [hdp walk firstn map snd]. unfold load. rewrite E. cbn [rbind n_next n_data]. rewrite (IH _ k S). reflexivity.
Qed.
Lemma seg_skip : forall m xs p k, L_LinkedList.seg (A := operator) m p xs None -> exists q, L_LinkedList.seg m q (skipn k xs) None.
Proof. intros m. induction xs as [|[a x] xs IH]; intros p k S; destruct k; try (exists p; exact S). destruct S as [_ S]. exact (IH _ k S). Qed.
Lemma slice : forall c us a b, sctx c us -> a < 58 -> b <= 58 -> ops_between c a b = Ok (firstn (b - a) (skipn a arith_registry)).
Proof.
  intros c us a b (C & _) A B. destruct C as ((k & R) & _). unfold ops_between. pose proof R as R0. destruct R0 as (_ & _ & _ & S & _).
  assert (Lr : List.length (keyed (arith_registry ++ us)) = 58 + List.length us) by (unfold keyed; rewrite map_length, app_length, arith_len; reflexivity).
  destruct (nth_error (keyed (arith_registry ++ us)) a) as [[i x]|] eqn:N; [|apply nth_error_None in N; lia].
  rewrite (get_node_rep _ _ _ _ _ _ _ R N). cbn [rbind]. destruct (seg_skip _ _ _ a S) as (q & S').
  assert (Hd : Some i = hdp (skipn a (keyed (arith_registry ++ us))) None).
  { clear - N. revert N. generalize (keyed (arith_registry ++ us)) as l. intros l. revert l. induction a as [|a IH]; intros [|y l] N; try discriminate N; [injection N as ->; reflexivity|exact (IH l N)]. }
  rewrite Hd, (walk_seg _ _ _ _ S'). f_equal. unfold keyed. rewrite skipn_map, firstn_map, map_map. cbn [snd]. rewrite map_id.
  pose proof arith_len as Al. revert Al. generalize arith_registry as r. intros r Al. rewrite skipn_app, firstn_app. replace (b - a - List.length (skipn a r)) with 0 by (rewrite skipn_length; lia). rewrite firstn_O, app_nil_r. reflexivity.
Qed.
Definition plain_opb (op : operator) : bool :=
  forallb (fun c => negb (ceqb c S_Table.ESC) && negb (ceqb c LF)) (usage op) && streqb (op_text op) (usage op).
Lemma plain_opb_ok : forall op, plain_opb op = true -> plain_op op.
Proof.
  intros op H. apply andb_true_iff in H. destruct H as [A B]. split; [|apply L_Trie.streqb_eq; exact B]. rewrite forallb_forall in A. apply Forall_forall. intros c I. specialize (A c I).
  apply andb_true_iff in A. destruct A as [A1 A2]. rewrite negb_true_iff in A1, A2. split; intros ->; discriminate.
Qed.
Lemma registry_plain : forallb plain_opb arith_registry = true. Proof. vm_compute. reflexivity. Qed.
Lemma slice_in : forall A (l : list A) n k x, In x (firstn n (skipn k l)) -> In x l.
Proof. intros A l n k x I. rewrite <- (firstn_skipn k l). apply in_or_app. right. rewrite <- (firstn_skipn n (skipn k l)). apply in_or_app. left. exact I. Qed.
Lemma printed_slice : forall c us a b, sctx c us -> a < 58 -> b <= 58 -> exists text, print_ops_between c a b = Ok text /\ shows_operators (firstn (b - a) (skipn a arith_registry)) text.
Proof.
  intros c us a b S A B. unfold print_ops_between. rewrite (slice c us a b S A B). cbn [rbind]. eexists. split; [reflexivity|]. apply wrapped_lines. apply Forall_forall. intros op I. apply slice_in in I. apply plain_opb_ok.
  pose proof registry_plain as K. rewrite forallb_forall in K. exact (K op I).
Qed.

(** ** Texts of functions *)
Lemma child_ids : forall g p t, child_wrapped p (with_ids g t) = child_wrapped p t.
Proof. intros g p [v k|x i k|op cs k]; reflexivity. Qed.
Lemma text_ids : forall fmt color g t l r, to_str fmt color (with_ids g t) l r = to_str fmt color t l r.
Proof.
  intros fmt color g. induction t as [v k|x i k|op cs k IH] using node_ind'; intros l r; try reflexivity. rewrite Forall_forall in IH. cbn [with_ids to_str]. destruct (o_place op).
  - destruct cs as [|c0 cs]; [reflexivity|]. cbn [map]. rewrite child_ids, !(IH c0 (or_introl eq_refl)). reflexivity.
  - destruct cs as [|c0 [|c1 cs]]; [reflexivity|reflexivity|]. cbn [map]. rewrite !child_ids, !(IH c0 (or_introl eq_refl)), !(IH c1 (or_intror (or_introl eq_refl))). reflexivity.
  - destruct cs as [|c0 cs]; [reflexivity|]. cbn [map]. rewrite child_ids, !(IH c0 (or_introl eq_refl)). reflexivity.
  - destruct (arity_zero (o_arity op)); [reflexivity|]. match goal with |- rbind ?x _ = rbind ?y _ => assert (E : x = y) end.
    { induction cs as [|c0 cs IHc]; [reflexivity|]. destruct cs as [|c1 cs]; [cbn [map]; apply IH; left; reflexivity|]. cbn [map] in *. rewrite (IH c0 (or_introl eq_refl)).
      destruct (to_str fmt color c0 false false); cbn [rbind]; auto. rewrite IHc; [reflexivity|]. intros x I. apply IH. right. exact I. }
    rewrite E. reflexivity.
Qed.
Definition printf_fine (op : operator) : Prop := o_place op = PPrefix -> exists n, printf_no_args (o_name op) = Ok n.
Lemma text_shaped : forall fmt color t, shaped t -> (forall op, In op (operators_of t) -> printf_fine op) -> forall l r, exists ps, to_str fmt color t l r = Ok ps.
Proof.
  intros fmt color. induction t as [v k|x i k|op cs k IH] using node_ind'; intros A O l r; cbn [to_str]; eauto. cbn [shaped] in A. destruct A as [A1 A2].
  assert (A3 : forall x, In x cs -> shaped x). { clear - A2. induction cs as [|c cs IHc]; [intros x []|]. destruct A2 as [A B]. intros x [<-|I]; auto. }
  assert (K : forall x, In x cs -> forall l r, exists ps, to_str fmt color x l r = Ok ps).
  { intros x I. rewrite Forall_forall in IH. apply IH; auto. intros o Io. apply O. right. apply in_flat_map. eauto. }
  assert (W : forall x (b : bool) l r, In x cs -> exists ps, (if b then b <- to_str fmt color x false false ;; Ok (wrap_if true b) else to_str fmt color x l r) = Ok ps).
  { intros x [|] l' r' I; [destruct (K x I false false) as (ps & ->); cbn [rbind]; eauto|auto]. }
  clear IH. destruct (o_place op) eqn:Pl.
  - destruct cs as [|c0 cs]; [discriminate A1|]. destruct (O op (or_introl eq_refl) Pl) as (n & N).
    rewrite N. cbn [rbind]. match goal with |- exists _, rbind ?x _ = _ => assert (X : exists b, x = Ok b) by (apply W; left; auto) end. destruct X as (b & ->). cbn [rbind]. eauto.
  - destruct cs as [|c0 [|c1 cs]]; try discriminate A1.
    match goal with |- exists _, rbind ?x _ = _ => assert (X : exists b, x = Ok b) by (apply W; left; auto) end. destruct X as (a & ->). cbn [rbind].
    match goal with |- exists _, rbind ?x _ = _ => assert (X : exists b, x = Ok b) by (apply W; right; left; auto) end. destruct X as (b & ->). cbn [rbind]. eauto.
  - destruct cs as [|c0 cs]; [discriminate A1|].
    match goal with |- exists _, rbind ?x _ = _ => assert (X : exists b, x = Ok b) by (apply W; left; auto) end. destruct X as (b & ->). cbn [rbind]. eauto.
  - destruct (arity_zero (o_arity op)); eauto.
    match goal with |- exists _, rbind ?x _ = _ => assert (X : exists b, x = Ok b) end.
    { clear - K. induction cs as [|c0 cs IHc]; eauto. destruct cs as [|c1 cs]; [apply K; left; auto|]. destruct (K c0 (or_introl eq_refl) false false) as (a & ->). cbn [rbind].
      destruct IHc as (b & E); [intros x I; apply K; right; auto|]. cbn in E |- *. rewrite E. cbn [rbind]. eauto. }
    destruct X as (b & ->). cbn [rbind]. eauto.
Qed.
(** The parameters in parentheses *)
Definition arg_texts fmt color := fix args (l : list node) : res (list cstr) :=
  match l with
  | [] => Ok []
  | [c] => to_str fmt color c false false
  | c :: l' => a <- to_str fmt color c false false ;; b <- args l' ;; Ok (a ++ [str ","] ++ b)
  end.
Lemma parameter_texts : forall fmt xs cs, List.length cs = List.length xs -> (forall i x, nth_error xs i = Some x -> exists j t, nth_error cs i = Some (NVar x j t)) ->
  exists ps, arg_texts fmt false cs = Ok ps /\ List.concat ps = comma_list xs.
Proof.
  intros fmt. induction xs as [|x xs IH]; intros [|c cs] Hl H; try discriminate Hl.
  - exists []. split; reflexivity.
  - destruct (H 0 x eq_refl) as (j & t & E). injection E as ->. destruct (IH cs) as (ps & E1 & E2); [injection Hl; auto|intros i y N; exact (H (S i) y N)|].
    destruct xs as [|x' xs]; destruct cs as [|c' cs]; try discriminate Hl.
    + exists [x]. split; [reflexivity|]. cbn. apply app_nil_r.
    + exists ([x] ++ [str ","] ++ ps). split. { change (arg_texts fmt false (NVar x j t :: c' :: cs)) with (a <- to_str fmt false (NVar x j t) false false ;; b <- arg_texts fmt false (c' :: cs) ;; Ok (a ++ [str ","] ++ b)). rewrite E1. reflexivity. }
      rewrite !concat_app, E2. cbn [List.concat app comma_list]. rewrite !app_nil_r. reflexivity.
Qed.
Lemma call_text : forall fmt f cs k, o_place (f_op f) = PFunction -> o_arity (f_op f) = Some (List.length (f_params f)) -> List.length cs = List.length (f_params f) ->
  (forall i x, nth_error (f_params f) i = Some x -> exists j t, nth_error cs i = Some (NVar x j t)) ->
  exists ps, to_str fmt false (NOp (f_op f) cs k) false false = Ok ps /\ List.concat ps = left_side f.
Proof.
  intros fmt f cs k P A Hl H. destruct (parameter_texts fmt _ _ Hl H) as (ps & E1 & E2). cbn [to_str]. rewrite P, A. fold (arg_texts fmt false). unfold left_side.
  destruct (f_params f) as [|x xs]; cbn [List.length arity_zero].
  - exists [o_name (f_op f)]. split; [reflexivity|]. cbn [List.concat]. reflexivity.
  - match goal with |- exists _, rbind ?x _ = _ /\ _ => change x with (arg_texts fmt false cs) end. rewrite E1. cbn [rbind]. eexists. split; [reflexivity|]. rewrite !concat_app, E2. cbn [List.concat app]. rewrite app_nil_r, <- !app_assoc. reflexivity.
Qed.

(** *** Parameters *)
Section Reached.
Variable L : libm.
Variable fuel : nat.
Variable strtod : cstr -> option double.
Variable files : cstr -> option (list ascii).
Notation reached := (session_of L fuel strtod files any_function).
Lemma accepted_words : forall s defs l s' o f, inv s defs -> handles KDefinition l -> ~ In "["%char l -> cmd_definition_exec L fuel strtod s l = Done (Ok (Did s' o true)) ->
  defines L fuel strtod s l s' f -> Forall word (f_params f).
Proof.
  intros s defs l s' o f V H NB E D. inversion H as [| |l' H1 H2 H3| | |]; subst. apply definition_spec in H3. unfold cmd_definition_check in H3.
  destruct (strstr l DEFINITION_OP) as [n|] eqn:St; [|discriminate H3]. pose proof (L_StringUtil.strstr_some _ _ _ St) as [_ Cut]. change (List.length DEFINITION_OP) with 1 in Cut.
  destruct (definition_cases L fuel strtod s defs l n V NB St) as [(s2 & R & _)|[(name & (s2 & f0 & R & V' & NF & FR & SR & PR) & ts & others & Tk & U & Sl)|[(R & _)|(c & op & ts & t & _ & _ & _ & R)]]].
  - rewrite E in R. discriminate R.
  - rewrite E in R. injection R as <- ->. destruct NF as (Nn & Id & Fr & (c0 & op0 & ts0 & opl & cs & k & S0 & N0 & P0 & E0 & Vn & Ep) & _).
    assert (Ts : ts0 = ts).
    { destruct (parse_input_tokens strtod c0 (proj1 (proj2 S0)) (firstn n l)) as (ts2 & T2 & _ & Pq). rewrite Pq in E0.
      destruct (parse_tokens strtod (M_Parser.view c0) ts2) as [q| |]; cbn [rbind] in E0; try discriminate E0. injection E0 as -> _.
      rewrite (session_tokens c0 (ss_ctx s) _ _ _ S0 (i_ctx _ _ V)), Tk in T2. congruence. }
    subst ts0.
    assert (W : words ts = o_name (f_op f0) :: f_params f0). { rewrite Nn, <- Ep. eapply left_words; eauto. }
    destruct D as (left & right & tsl & tsr' & t' & s1' & Cut' & Er' & Es' & Tk' & W' & Lk'). destruct (cut_fixed _ _ _ _ _ _ Cut Cut') as [<- <-].
    unfold P_Context.tokenize_with in Tk. rewrite Tk in Tk'. injection Tk' as <-. rewrite W in W'. injection W' as _ <-. rewrite <- Ep.
    pose proof (L_PrintParse.parsed_vars strtod c0 (proj1 (proj2 S0)) _ _ _ E0) as F. cbn [var_names] in F. eapply Forall_impl; [|exact F]. intros v [_ X]. exact X.
  - rewrite E in R. discriminate R.
  - exfalso. rewrite E in R. destruct R as [[_ R]|[[_ R]|[[_ R]|[_ R]]]]; discriminate R.
Qed.
Theorem reach_words : forall s defs, reached s defs -> Forall (fun f => Forall word (f_params f)) defs.
Proof.
  intros s defs R. induction R as [files0 path rand s E|s defs d l s' o f R IH H NB E D Fc|s defs d l s' o R IH H NB E|s defs d s' o b R IH E|s d1 f d2 d l s' o R IH H N Sk M E|s defs d l s' o R IH H N E|s defs k d l s' o b R IH H Ik E|s defs path s' o b R IH E]; auto.
  - pose proof (reach_inv _ _ _ _ _ _ _ R) as V. rewrite exec_definition in E by auto. apply Forall_app. split; [exact IH|]. constructor; [|constructor]. eapply accepted_words; eauto.
  - apply Forall_app in IH. destruct IH as [A B]. apply Forall_app. split; auto. inversion B; auto.
Qed.
Lemma builtin_prefix : forallb (fun o => match o_place o with PPrefix => match printf_no_args (o_name o) with Ok _ => true | _ => false end | _ => true end) arith_registry = true.
Proof. vm_compute. reflexivity. Qed.
Lemma like_solid : forall op, builtin_like op -> solid (o_name op) /\ printf_fine op.
Proof.
  intros op (b & I & N & P & _). split; [rewrite <- N|intros Pl; rewrite <- N].
  - pose proof registry_solid as K. rewrite forallb_forall in K. apply solidb_ok. exact (K b I).
  - pose proof builtin_prefix as K. rewrite forallb_forall in K. specialize (K b I). rewrite P, Pl in K. destruct (printf_no_args (o_name b)); [eauto|discriminate K|discriminate K].
Qed.
(** The row of a function *)
Lemma function_texts : forall s defs r f, reached s defs -> In f defs -> rule_for r f -> shaped (f_body f) ->
  exists a b, function_row r = Ok [CAdd (Some a); CAdd (Some (str " = ")); CAdd (Some b); CNextRow] /\ calm a /\ calm b /\
    seen_text false a = left_side f /\ tree_to_str printf_g false (f_body f) = Ok (seen_text false b).
Proof.
  intros s defs r f R If Rf Sh. pose proof (reach_inv _ _ _ _ _ _ _ R) as V. pose proof (i_funs _ _ V) as F. rewrite Forall_forall in F. destruct (F f If) as (P & A & Ln & Ne & _ & Pk & Gb).
  pose proof (reach_words _ _ R) as W. rewrite Forall_forall in W. specialize (W f If). destruct (rule_facts r f Rf Pk) as (k & vs & _ & Et & Lv & Sv & _ & Inc & Ea).
  assert (So : solid (o_name (f_op f))) by (apply word_solid; split; auto).
  rewrite G_operators in Gb. assert (Bo : Forall (fun op => solid (o_name op)) (operators_of (f_body f))) by (apply Forall_forall; intros op I; apply like_solid; auto).
  assert (Bv : Forall solid (var_names (f_body f))). { apply Forall_forall. intros x I. apply word_solid. rewrite Forall_forall in W. apply W, Inc, I. }
  set (cs := map (with_ids (pos_in (f_params f))) vs) in *. assert (Lc : List.length cs = List.length (f_params f)) by (unfold cs; rewrite map_length; exact Lv).
  assert (Cv : forall c, In c cs -> exists x j t, c = NVar x j t /\ In x (f_params f)).
  { intros c I. apply In_nth_error in I. destruct I as (i & N). destruct (nth_error (f_params f) i) as [x|] eqn:X; [|apply nth_error_None in X; assert (i < List.length cs) by (apply nth_error_Some; congruence); lia].
    destruct (Sv i x X) as (t & N'). rewrite N in N'. injection N' as ->. exists x, i, t. split; [reflexivity|eapply nth_error_In; eauto]. }
  assert (Co : Forall (fun op => solid (o_name op)) (operators_of (NOp (f_op f) cs k))).
  { cbn [operators_of]. constructor; [exact So|]. apply Forall_forall. intros op I. apply in_flat_map in I. destruct I as (c & Ic & I). destruct (Cv c Ic) as (x & j & t & -> & _). destruct I. }
  assert (Cn : Forall solid (var_names (NOp (f_op f) cs k))).
  { cbn [var_names]. apply Forall_forall. intros x I. apply in_flat_map in I. destruct I as (c & Ic & I). destruct (Cv c Ic) as (y & j & t & -> & Iy). destruct I as [<-|[]]. apply word_solid. rewrite Forall_forall in W. auto. }
  destruct (call_text printf_g f cs k P A Lc) as (qa & Qa & Ca). { intros i x N. destruct (Sv i x N) as (t & E). eauto. }
  destruct (text_shaped printf_g true (NOp (f_op f) cs k)) with (l := false) (r := false) as (pa & Pa).
  { cbn [shaped]. rewrite P. split; [exact Logic.I|]. clear - Cv. induction cs as [|c cs IH]; [exact Logic.I|]. split; [destruct (Cv c (or_introl eq_refl)) as (x & j & t & -> & _); exact Logic.I|]. apply IH. intros d I. apply Cv. right. exact I. }
  { cbn [operators_of]. intros op [<-|I]; [intros Q; rewrite P in Q; discriminate Q|]. apply in_flat_map in I. destruct I as (c & Ic & I). destruct (Cv c Ic) as (x & j & t & -> & _). destruct I. }
  assert (Pf : forall op, In op (operators_of (f_body f)) -> printf_fine op) by (intros op I; apply like_solid; auto).
  destruct (text_shaped printf_g true (f_body f) Sh Pf false false) as (pb & Pb). destruct (text_shaped printf_g false (f_body f) Sh Pf false false) as (qb & Qb).
  exists (List.concat pa), (List.concat pb). split. { unfold function_row, tree_to_str, tree_pieces. rewrite Et, Pa. cbn [rbind]. rewrite Ea, text_ids, Pb. reflexivity. }
  split; [exact (text_calm printf_g printf_g_solid _ false false pa Co Cn Pa)|]. split; [exact (text_calm printf_g printf_g_solid _ false false pb Bo Bv Pb)|].
  pose proof (text_shows printf_g printf_g_solid _ false false pa qa Co Cn Pa Qa []) as Xa. pose proof (text_shows printf_g printf_g_solid _ false false pb qb Bo Bv Pb Qb []) as Xb. rewrite !app_nil_r in Xa, Xb.
  split; [congruence|]. unfold tree_to_str, tree_pieces. rewrite Qb, Xb. reflexivity.
Qed.
Lemma function_table : forall s defs, reached s defs -> forall rs fs, incl fs defs -> Forall2 rule_for rs fs -> Forall (fun f => shaped (f_body f)) fs ->
  exists texts, Forall2 shown_function fs texts /\ Forall (fun p => calm (fst p) /\ calm (snd p)) texts /\ function_rows rs = Ok (grid_calls (function_cells texts ++ [[]])).
Proof.
  intros s defs R rs fs I F Sh. induction F as [|r f rs fs Rf F IH].
  - exists []. split; [constructor|]. split; [constructor|reflexivity].
  - inversion Sh as [|? ? S1 S2]; subst. destruct IH as (texts & T1 & T2 & T3); [intros x X; apply I; right; exact X|exact S2|].
    destruct (function_texts _ _ r f R (I f (or_introl eq_refl)) Rf S1) as (a & b & E & Ca & Cb & Sa & Sb). exists ((a, b) :: texts). split; [constructor; [split; [exact Sa|exact Sb]|exact T1]|]. split; [constructor; [split; [exact Ca|exact Cb]|exact T2]|].
    cbn [function_rows]. rewrite E, T3. cbn [rbind]. rewrite !grid_calls_app. reflexivity.
Qed.
Lemma function_picture : forall texts, texts <> [] -> Forall (fun p => calm (fst p) /\ calm (snd p)) texts -> 2 * List.length texts + 4 < Nat.pow 2 31 ->
  exists out, table_of (grid_calls (function_cells texts ++ [[]])) = sret out /\ map glyphs out = grid_picture [] (function_cells texts).
Proof.
  intros texts Ne F Sm. rewrite Forall_forall in F.
  assert (Cl : forall r, In r (function_cells texts ++ [[]]) -> List.length r <= 3 /\ forall c, In c r -> calm_cell c).
  { intros r I. apply in_app_or in I. destruct I as [I|[<-|[]]]; [|split; [cbn; lia|intros c []]]. apply in_map_iff in I. destruct I as ([a b] & <- & I). destruct (F _ I) as [A B]. split; [cbn; lia|]. intros c [<-|[<-|[<-|[]]]]; [exact A| |exact B]. apply calm_solid. split; [discriminate|]. repeat constructor; discriminate. }
  destruct (C69_grid (function_cells texts ++ [[]]) []) as (t & t' & out & E1 & E2 & E3).
  - intros r I. destruct (Cl r I) as [A B]. split; [unfold TABLE_MAX_COLS; lia|]. intros c Ic. specialize (B c Ic). destruct c; [apply calm_tidy; exact B|exact Logic.I].
  - destruct texts as [|[a b] texts]; [congruence|]. exists [Some a; Some (str " = "); Some b]. split; [left; reflexivity|discriminate].
  - cbn; lia.
  - rewrite app_length. pose proof (sum_le row_height (function_cells texts ++ [[]])) as Su. rewrite app_length in Su. unfold function_cells in *. rewrite map_length in *. cbn [List.length] in *.
    eapply Nat.le_lt_trans; [|exact Sm]. match goal with |- ?a + _ <= _ => assert (a <= List.length texts + 1); [apply Su; intros r I; apply calm_height; apply (Cl r I)|] end. lia.
  - cbn [alignment_call] in E1. rewrite app_nil_r in E1. exists out. split; [unfold table_of; rewrite E1; cbn [of_res sbind]; rewrite E2; reflexivity|]. rewrite E3. apply picture_end.
Qed.
End Reached.

(** ** The tables of operators *)
Section Agree.
Variables (g : sheet) (n : nat).
Notation cols := (g_cols g).
Definition cell_of (y x : nat) : halign * option cstr := (setting (p_h (g_spot g y x)) (g_h g x), p_text (g_spot g y x)).
Definition row_of (y : nat) : list (halign * option cstr) := map (cell_of y) (List.seq 0 cols).
Definition agrees : Prop :=
  g_rows g = S n /\ map (fun x => p_text (g_spot g n x)) (List.seq 0 cols) = repeat None cols /\
  map (fun y => map (fun x => setting (p_v (g_spot g y x)) (g_v g x)) (List.seq 0 cols)) (List.seq 0 n) = repeat (repeat VTop cols) n.
Hypothesis A : agrees.
Hypothesis N0 : 0 < n.
Lemma map_seq_nth : forall B (f : nat -> B) k x d, x < k -> nth x (map f (List.seq 0 k)) d = f x.
Proof. intros B f k x d H. rewrite (nth_indep _ d (f 0)) by (rewrite map_length, seq_length; exact H). rewrite map_nth, seq_nth by exact H. reflexivity. Qed.
Lemma map_seq_error : forall B (f : nat -> B) k x, x < k -> nth_error (map f (List.seq 0 k)) x = Some (f x).
Proof. intros B f k x H. rewrite (nth_error_nth' _ (f 0)) by (rewrite map_length, seq_length; exact H). rewrite map_seq_nth by exact H. reflexivity. Qed.
Lemma last_empty : forall x, x < cols -> p_text (g_spot g n x) = None.
Proof. intros x X. destruct A as (_ & E & _). apply (f_equal (fun l => nth x l None)) in E. rewrite map_seq_nth in E by exact X. rewrite E. apply nth_repeat. Qed.
Lemma all_top : forall y x, y < n -> x < cols -> setting (p_v (g_spot g y x)) (g_v g x) = VTop.
Proof.
  intros y x Y X. destruct A as (_ & _ & E). apply (f_equal (fun l => nth x (nth y l []) VTop)) in E. rewrite map_seq_nth in E by exact Y. rewrite map_seq_nth in E by exact X. rewrite E.
  destruct (nth_in_or_default y (repeat (repeat VTop cols) n) []) as [I| ->]; [|destruct x; reflexivity]. apply repeat_spec in I. rewrite I. apply nth_repeat.
Qed.
Lemma height_row : forall y, sheet_height g y = row_height (map snd (row_of y)).
Proof. intros y. unfold sheet_height, row_height, row_of. rewrite !map_map. reflexivity. Qed.
Lemma height_last : sheet_height g n = 0.
Proof.
  unfold sheet_height. apply Nat.le_0_r. apply maximum_le. intros a I. apply in_map_iff in I. destruct I as (x & <- & I). apply in_seq in I. rewrite last_empty by lia. cbn. lia.
Qed.
Lemma width_column : forall x, x < cols -> sheet_width g x = column_width (map (map snd) (map row_of (List.seq 0 n))) x.
Proof.
  intros x X. unfold sheet_width, column_width. rewrite (proj1 A), seq_S, map_app, maximum_app. cbn [map Nat.add]. rewrite last_empty by exact X. change (maximum [text_width None]) with 0. rewrite Nat.max_0_r, !map_map. f_equal. apply map_ext. intros y. unfold row_of. rewrite map_map, map_seq_error by exact X. reflexivity.
Qed.
Lemma max_const : forall (l : list nat) k, l <> [] -> (forall a, In a l -> a = k) -> maximum l = k.
Proof. intros l k Ne H. apply Nat.le_antisymm; [apply maximum_le; intros a I; rewrite (H a I); lia|]. destruct l as [|a l]; [congruence|]. rewrite <- (H a (or_introl eq_refl)). apply maximum_ge. left. reflexivity. Qed.
Lemma flat_map_map : forall (B C D : Type) (f : B -> C) (h : C -> list D) l, flat_map h (map f l) = flat_map (fun x => h (f x)) l.
Proof. intros. induction l as [|x l IH]; [reflexivity|]. cbn [map flat_map]. rewrite IH. reflexivity. Qed.
Lemma sheet_aligned : sheet_picture g = aligned_grid (map row_of (List.seq 0 n)).
Proof.
  unfold sheet_picture, aligned_grid. rewrite (proj1 A), seq_S, flat_map_app. cbn [flat_map Nat.add]. rewrite height_last. cbn [List.seq map]. rewrite !app_nil_r. rewrite flat_map_map. apply flat_map_same. intros y Iy. apply in_seq in Iy.
  rewrite height_row. apply map_ext. intros k.
  assert (Mc : maximum (map (List.length (A:=option cstr)) (map (map snd) (map row_of (List.seq 0 n)))) = cols).
  { apply max_const; [destruct n; [lia|discriminate]|]. intros a I. rewrite !map_map in I. apply in_map_iff in I. destruct I as (z & <- & _). unfold row_of. rewrite !map_length, seq_length. reflexivity. }
  rewrite Mc. apply flat_map_same. intros x Ix. apply in_seq in Ix. unfold row_of at 2. rewrite map_seq_nth by lia. unfold cell_of. cbv zeta. rewrite all_top by lia. rewrite width_column by lia. unfold line_of. cbn [Nat.ltb Nat.leb]. rewrite Nat.sub_0_r. reflexivity.
Qed.
End Agree.
Lemma calm_rows : forall M, (forall r c, In r M -> In c r -> calm_cell (snd c)) -> forall r, In r (map (map (@snd halign (option cstr))) M) -> row_height r <= 1.
Proof. intros M C r I. apply in_map_iff in I. destruct I as (r' & <- & I). apply calm_height. intros c Ic. apply in_map_iff in Ic. destruct Ic as (c' & <- & Ic). eapply C; eauto. Qed.
Lemma op_table : forall ks M, Forall plain ks -> (forall r c, In r M -> In c r -> calm_cell (snd c)) -> M <> [] -> List.length M <= 1000 ->
  match does_all new_sheet ks with Some g => agrees g (List.length M) /\ map (row_of g) (List.seq 0 (List.length M)) = M /\ 0 < g_cols g | None => False end ->
  exists out, table_of ks = sret out /\ map glyphs out = aligned_grid M.
Proof.
  intros ks M F C Ne Lm D. destruct (does_all new_sheet ks) as [g|] eqn:E; [|destruct D]. destruct D as (Ag & Em & C0). assert (Nm : 0 < List.length M) by (destruct M; [congruence|cbn; lia]).
  destruct (C69_plain ks g F E C0) as (t & t' & out & E1 & E2 & E3).
  - eapply Nat.le_lt_trans with (m := 3000); [|apply Nat.lt_le_trans with (Nat.pow 2 12); [apply Nat.ltb_lt; vm_compute; reflexivity|apply Nat.pow_le_mono_r; lia]].
    rewrite (proj1 Ag), seq_S, map_app, fold_right_app. cbn [map fold_right Nat.add]. rewrite (height_last g _ Ag Nm), Nat.add_0_r.
    assert (H : fold_right Nat.add 0 (map (sheet_height g) (List.seq 0 (List.length M))) <= List.length M); [|lia].
    pose proof (sum_le row_height (map (map snd) M) (calm_rows M C)) as Su. rewrite map_length in Su. rewrite <- Em in Su at 1. rewrite !map_map in Su. erewrite map_ext; [exact Su|]. intros y. apply height_row.
  - exists out. split; [unfold table_of; rewrite E1; cbn [of_res sbind]; rewrite E2; reflexivity|]. rewrite E3, (sheet_aligned g (List.length M) Ag Nm), Em. reflexivity.
Qed.
(** *** Their calls *)
Definition fixed_rows (place : placement) (assoc precedence arity value : bool) (ops : list operator) : list call :=
  match op_rows no_libm 0 w0 place assoc precedence arity value 0 ops with Done (Ok r) => r | _ => [] end.
Definition infix_calls : list call := op_header true true false false ++ fixed_rows PInfix true true false false arith_registry.
Definition prefix_calls : list call := op_header false true false false ++ fixed_rows PPrefix false true false false arith_registry.
Definition postfix_calls : list call := op_header false true false false ++ fixed_rows PPostfix false true false false arith_registry.
Definition function_calls : list call := op_header false false true false ++ fixed_rows PFunction false false true false arith_registry.
Definition constant_calls (T : option cstr) : list call :=
  op_header false false false true ++ fixed_rows PFunction false false false true (firstn 57 arith_registry) ++ [CAdd (Some (str " ans ")); CHAlign HRight; CAdd T; CAdd (Some (str " Last result ")); CNextRow].
Definition calm_callb (k : call) : bool := match k with CAdd (Some s) => solidb s | CAdd None | CNextRow | CAlignments _ _ _ | CHAlign _ | CHAlignRow _ => true | _ => false end.
Lemma calm_plain : forall ks, forallb calm_callb ks = true -> Forall plain ks.
Proof.
  intros ks H. rewrite forallb_forall in H. apply Forall_forall. intros k I. specialize (H k I). destruct k; try discriminate H; try exact Logic.I. destruct text; [|exact Logic.I]. cbn [calm_callb] in H. apply calm_tidy, calm_solid, solidb_ok, H.
Qed.
Definition calm_cellsb (M : list (list (halign * option cstr))) : bool := forallb (forallb (fun c => match snd c with Some s => solidb s | None => true end)) M.
Lemma calm_cells_ok : forall M, calm_cellsb M = true -> forall r c, In r M -> In c r -> calm_cell (snd c).
Proof. intros M H r c Ir Ic. unfold calm_cellsb in H. rewrite forallb_forall in H. specialize (H r Ir). rewrite forallb_forall in H. specialize (H c Ic). destruct (snd c); [apply calm_solid, solidb_ok, H|exact Logic.I]. Qed.
Definition fits (ks : list call) (M : list (list (halign * option cstr))) : Prop :=
  match does_all new_sheet ks with Some g => agrees g (List.length M) /\ map (row_of g) (List.seq 0 (List.length M)) = M /\ 0 < g_cols g | None => False end.
Ltac fits := vm_compute; repeat (split; [first [reflexivity|repeat (split; [reflexivity|]); reflexivity]|]); repeat constructor.
Lemma infix_fits : fits infix_calls (infix_cells arith_registry). Proof. fits. Qed.
Lemma prefix_fits : fits prefix_calls (unary_cells PPrefix arith_registry). Proof. fits. Qed.
Lemma postfix_fits : fits postfix_calls (unary_cells PPostfix arith_registry). Proof. fits. Qed.
Lemma function_fits : fits function_calls (callable_cells arith_registry). Proof. fits. Qed.
Definition last_cell (history : list double) : option cstr := match rev history with v :: _ => S_TableOut.padded (printf_g v) | [] => None end.
Lemma constant_fits : forall history, fits (constant_calls (last_cell history)) (constant_cells history arith_registry).
Proof.
  intros history. unfold constant_cells, constant_values, last_cell. destruct (rev history) as [|v l]; [fits|]. generalize (printf_g v). intros T. fits.
Qed.
Lemma calm_tables : forallb calm_callb (infix_calls ++ prefix_calls ++ postfix_calls ++ function_calls ++ constant_calls None) &&
  calm_cellsb (infix_cells arith_registry ++ unary_cells PPrefix arith_registry ++ unary_cells PPostfix arith_registry ++ callable_cells arith_registry ++ constant_cells [] arith_registry) = true.
Proof. vm_compute. reflexivity. Qed.
Definition calm_table (ks : list call) (M : list (list (halign * option cstr))) : bool := forallb calm_callb ks && calm_cellsb M && (List.length M <=? 1000) && (0 <? List.length M).
Lemma tabled : forall ks M, calm_table ks M = true -> fits ks M -> exists out, table_of ks = sret out /\ map glyphs out = aligned_grid M.
Proof.
  intros ks M H F. unfold calm_table in H. rewrite !andb_true_iff in H. destruct H as (((A & B) & C) & D). apply op_table; [apply calm_plain; exact A|apply calm_cells_ok; exact B| |apply Nat.leb_le; exact C|exact F].
  intros ->. discriminate D.
Qed.
Lemma infix_calm : calm_table infix_calls (infix_cells arith_registry) = true. Proof. vm_compute. reflexivity. Qed.
Lemma prefix_calm : calm_table prefix_calls (unary_cells PPrefix arith_registry) = true. Proof. vm_compute. reflexivity. Qed.
Lemma postfix_calm : calm_table postfix_calls (unary_cells PPostfix arith_registry) = true. Proof. vm_compute. reflexivity. Qed.
Lemma function_calm : calm_table function_calls (callable_cells arith_registry) = true. Proof. vm_compute. reflexivity. Qed.
Lemma padded_solid : forall s, solid s -> solid (str " " ++ s ++ str " ").
Proof. intros s H. apply app_solid; [repeat constructor; discriminate|]. apply solid_app; [exact H|repeat constructor; discriminate]. Qed.
Lemma last_plain : forall h, plain (CAdd (last_cell h)).
Proof. intros h. unfold last_cell. destruct (rev h); [exact Logic.I|]. apply calm_tidy, calm_solid, padded_solid, printf_g_solid. Qed.
Lemma constants_plain : forall h, Forall plain (constant_calls (last_cell h)).
Proof.
  intros h. pose proof calm_tables as K. apply andb_true_iff in K. destruct K as [K _]. rewrite !forallb_app, !andb_true_iff in K. destruct K as (_ & _ & _ & _ & K). apply calm_plain in K. revert K. unfold constant_calls.
  generalize (op_header false false false true) (fixed_rows PFunction false false false true (firstn 57 arith_registry)). intros a b K. rewrite !Forall_app in *. destruct K as (A & B & K). split; [exact A|]. split; [exact B|].
  inversion K as [|? ? K1 K2]; subst. inversion K2 as [|? ? K3 K4]; subst. inversion K4 as [|? ? K5 K6]; subst. constructor; [exact K1|]. constructor; [exact K3|]. constructor; [apply last_plain|exact K6].
Qed.
Lemma constant_rows : forall h, constant_cells h arith_registry = firstn 6 (constant_cells [] arith_registry) ++ [[at_left (str "ans"); (HRight, last_cell h); at_left (str "Last result")]].
Proof. intros h. unfold constant_cells at 1, constant_values, last_cell. destruct (rev h) as [|v l]; [vm_compute; reflexivity|]. generalize (printf_g v). intros T. vm_compute. reflexivity. Qed.
Lemma constants_calm : forall h r c, In r (constant_cells h arith_registry) -> In c r -> calm_cell (snd c).
Proof.
  intros h r c. rewrite constant_rows. intros Ir Ic. pose proof calm_tables as K. apply andb_true_iff in K. destruct K as [_ K]. unfold calm_cellsb in K. rewrite !forallb_app, !andb_true_iff in K. destruct K as (_ & _ & _ & _ & K).
  apply in_app_or in Ir. destruct Ir as [Ir|[<-|[]]].
  - assert (Ir' : In r (constant_cells [] arith_registry)). { rewrite <- (firstn_skipn 6 (constant_cells [] arith_registry)). apply in_or_app. left. exact Ir. } exact (calm_cells_ok _ K r c Ir' Ic).
  - destruct Ic as [<-|[<-|[<-|[]]]]; cbn [at_left snd].
    + apply calm_solid, solidb_ok. reflexivity.
    + unfold last_cell. destruct (rev h); [exact Logic.I|]. apply calm_solid, padded_solid, printf_g_solid.
    + apply calm_solid, solidb_ok. reflexivity.
Qed.
Lemma constants_length : forall h, List.length (constant_cells h arith_registry) = 7.
Proof. intros h. rewrite constant_rows, app_length. assert (E : List.length (firstn 6 (constant_cells [] arith_registry)) = 6) by (vm_compute; reflexivity). rewrite E. reflexivity. Qed.
Lemma seven_rows : forall ks M, Forall plain ks -> (forall r c, In r M -> In c r -> calm_cell (snd c)) -> List.length M = 7 -> fits ks M -> exists out, table_of ks = sret out /\ map glyphs out = aligned_grid M.
Proof. intros ks M P C Le F. apply op_table; [exact P|exact C| |lia|exact F]. intros E. rewrite E in Le. discriminate Le. Qed.
Lemma constants_tabled : forall h, exists out, table_of (constant_calls (last_cell h)) = sret out /\ map glyphs out = aligned_grid (constant_cells h arith_registry).
Proof. intros h. exact (seven_rows _ _ (constants_plain h) (constants_calm h) (constants_length h) (constant_fits h)). Qed.
(** *** The rows *)
Lemma rows_app : forall L fuel w p a b c d ops ops' i, op_rows L fuel w p a b c d i (ops ++ ops') =
  sbind (op_rows L fuel w p a b c d i ops) (fun r => sbind (op_rows L fuel w p a b c d (i + List.length ops) ops') (fun r' => sret (r ++ r'))).
Proof.
  intros L fuel w p a b c d. induction ops as [|op ops IH]; intros ops' i.
  - cbn [app op_rows List.length]. rewrite Nat.add_0_r. unfold sret at 2. cbn [sbind]. destruct (op_rows L fuel w p a b c d i ops') as [[r| |]|]; reflexivity.
  - cbn [app op_rows List.length]. rewrite IH. replace (S i + List.length ops) with (i + S (List.length ops)) by lia. destruct (if listed p d op then op_row L fuel w a b c d i op else sret []) as [[r| |]|]; cbn [sbind]; try reflexivity.
    destruct (op_rows L fuel w p a b c d (S i) ops) as [[r1| |]|]; cbn [sbind sret]; try reflexivity. unfold sret. cbn [sbind]. destruct (op_rows L fuel w p a b c d (i + S (List.length ops)) ops') as [[r2| |]|]; cbn [sbind]; try reflexivity. unfold sret. rewrite app_assoc. reflexivity.
Qed.
Lemma infix_rows : forall L fuel w, op_rows L fuel w PInfix true true false false 0 arith_registry = sret (fixed_rows PInfix true true false false arith_registry). Proof. intros. vm_compute. reflexivity. Qed.
Lemma prefix_rows : forall L fuel w, op_rows L fuel w PPrefix false true false false 0 arith_registry = sret (fixed_rows PPrefix false true false false arith_registry). Proof. intros. vm_compute. reflexivity. Qed.
Lemma postfix_rows : forall L fuel w, op_rows L fuel w PPostfix false true false false 0 arith_registry = sret (fixed_rows PPostfix false true false false arith_registry). Proof. intros. vm_compute. reflexivity. Qed.
Lemma callable_rows : forall L fuel w, op_rows L fuel w PFunction false false true false 0 arith_registry = sret (fixed_rows PFunction false false true false arith_registry). Proof. intros. vm_compute. reflexivity. Qed.
Lemma closed_rows : forall L fuel w, op_rows L fuel w PFunction false false false true 0 (firstn 57 arith_registry) = sret (fixed_rows PFunction false false false true (firstn 57 arith_registry)). Proof. intros. vm_compute. reflexivity. Qed.
Lemma newest : forall w, from_history w 0 = match rev (w_history w) with v :: _ => ok w v | [] => err w LISTENERERR_HISTORY_NOT_SET end.
Proof.
  intros w. unfold from_history, history_get. destruct (w_history w) as [|x h] eqn:E using rev_ind; [reflexivity|]. rewrite rev_app_distr, app_length. cbn [rev app List.length].
  destruct (Z.leb_spec (Z.of_nat (List.length h + 1)) 0); [lia|]. change (Z.to_nat 0) with 0. rewrite nth_error_app2 by lia. replace (List.length h + 1 - 1 - 0 - List.length h) with 0 by lia. reflexivity.
Qed.
Definition ans_op : operator := nth 57 arith_registry (mkOp [] 0 None 0 ALeft PFunction 0).
Lemma registry_cut : arith_registry = firstn 57 arith_registry ++ [ans_op]. Proof. vm_compute. reflexivity. Qed.
Lemma ans_row : forall L fuel w, op_rows L fuel w PFunction false false false true 57 [ans_op] = sret [CAdd (Some (str " ans ")); CHAlign HRight; CAdd (last_cell (w_history w)); CAdd (Some (str " Last result ")); CNextRow].
Proof.
  intros L fuel w. assert (E : arith_op_evaluate L fuel w ans_op [] = from_history w 0) by reflexivity. assert (Li : listed PFunction true ans_op = true) by (vm_compute; reflexivity). assert (Na : o_name ans_op = str "ans") by (vm_compute; reflexivity).
  revert E Li Na. generalize ans_op. intros op E Li Na. cbn [op_rows]. rewrite Li. unfold op_row. rewrite E, newest. unfold last_cell. change (nth_error OP_DESCRIPTIONS 57) with (Some (str " Last result ")).
  destruct (rev (w_history w)) as [|v l]; cbn [ok err sbind sret]; unfold ok, err, sret; cbn [sbind app]; rewrite Na; reflexivity.
Qed.
Lemma constant_table_rows : forall L fuel w, sbind (op_rows L fuel w PFunction false false false true 0 arith_registry) (fun rows => table_of (op_header false false false true ++ rows)) = table_of (constant_calls (last_cell (w_history w))).
Proof.
  intros L fuel w. rewrite registry_cut, rows_app, closed_rows. change (0 + List.length (firstn 57 arith_registry)) with 57. rewrite ans_row. unfold constant_calls. generalize (fixed_rows PFunction false false false true (firstn 57 arith_registry)). intros a. reflexivity.
Qed.

(** ** C76: the overview *)
Lemma command_table : exists out, table_of (add_cells_from_array COMMAND_TABLE) = sret out /\ map glyphs out = grid_picture [] command_cells.
Proof.
  set (M := map (fun '(a, b) => [a; b]) COMMAND_TABLE ++ [[]]).
  assert (T : forall r, In r M -> List.length r <= TABLE_MAX_COLS /\ forall c, In c r -> tidy_cell c).
  { assert (H : forallb (fun r => (List.length r <=? 2) && forallb (fun c => match c with Some s => forallb (fun c => negb (ceqb c S_Table.ESC)) s && negb (match s with c :: _ => ceqb c LF | [] => false end) | None => true end) r) M = true) by (vm_compute; reflexivity).
    rewrite forallb_forall in H. intros r I. specialize (H r I). apply andb_true_iff in H. destruct H as [A B]. apply Nat.leb_le in A. split; [eapply Nat.le_trans; [exact A|unfold TABLE_MAX_COLS; lia]|]. rewrite forallb_forall in B. intros [x|] Ic; [|exact Logic.I]. apply P_Table.tidy_lined. exact (B _ Ic). }
  destruct (C69_grid M [] T) as (t & t' & out & E1 & E2 & E3).
  - eexists. split; [left; reflexivity|discriminate].
  - cbn. lia.
  - apply Nat.lt_le_trans with (Nat.pow 2 7); [apply Nat.ltb_lt; vm_compute; reflexivity|apply Nat.pow_le_mono_r; lia].
  - exists out. change (grid_calls M ++ alignment_call []) with (add_cells_from_array COMMAND_TABLE) in E1. split; [unfold table_of; rewrite E1; cbn [of_res sbind]; rewrite E2; reflexivity|]. rewrite E3. vm_compute. reflexivity.
Qed.
Definition groups : list (list operator) := map (fun p => firstn (snd p - fst p) (skipn (fst p) arith_registry)) [(0, 4); (4, 22); (22, 34); (34, 52); (52, 58)].
Lemma groups_all : List.concat groups = arith_registry. Proof. vm_compute. reflexivity. Qed.
Lemma groups_named : map (map o_name) groups = map (fun g => map (fun e => str (fst e)) (snd g)) manual. Proof. vm_compute. reflexivity. Qed.
Lemma whole_registry : firstn (58 - 0) (skipn 0 arith_registry) = arith_registry. Proof. vm_compute. reflexivity. Qed.
Lemma entry_names : map o_name arith_registry = map (fun e => str (fst e)) entries. Proof. vm_compute. reflexivity. Qed.
Lemma registry_distinct : NoDup arith_registry.
Proof. pose proof (NoDup_keyed _ _ (proj1 sctx_init)) as Nd. rewrite app_nil_r in Nd. apply NoDup_map_inv in Nd. exact Nd. Qed.
Lemma known_operators : forall c us, sctx c us -> forall op, registered c op <-> In op arith_registry \/ In op us.
Proof.
  intros c us (C & _) op. unfold registered. rewrite (lookup_crep _ _ _ _ C), <- in_app_iff. split.
  - intros E. apply Ok_inj in E. apply reg_find_In in E. apply E.
  - intros I. destruct C as (_ & _ & _ & U & _). rewrite (U op I). reflexivity.
Qed.
(** For every reached session, `help` prints the table of commands and the operators in five groups. The groups have the operators named in
    the manual; together they have every operator once, apart from those the user defined. The definitions follow, if there are any. *)
Theorem C76_overview : forall L fuel strtod files s defs,
  session_of L fuel strtod files any_function s defs -> Forall (fun f => shaped (f_body f)) defs -> 2 * List.length defs + 4 < Nat.pow 2 31 ->
  exists commands gs texts rest,
    cmd_help_shows L fuel s (str "help") =
      Done (Ok (Some (PTable commands :: flat_map (fun '(title, text) => [PText (heading title); PText text]) (combine (map fst manual) texts) ++ [PText [LF]] ++ rest))) /\
    map glyphs commands = grid_picture [] command_cells /\
    Forall2 shows_operators gs texts /\
    map (map o_name) gs = map (fun g => map (fun e => str (fst e)) (snd g)) manual /\
    NoDup (List.concat gs) /\ (forall op, registered (ss_ctx s) op <-> In op (List.concat gs) \/ In op (map f_op defs)) /\
    (defs = [] -> rest = []) /\
    (defs <> [] -> exists out functions, rest = [PText (str "User-defined functions and constants:" ++ [LF]); PTable out] /\
       Forall2 shown_function defs functions /\ map glyphs out = grid_picture [] (function_cells functions)).
Proof.
  intros L fuel sd files s defs R Sh Sm. pose proof (reach_inv _ _ _ _ _ _ _ R) as V. pose proof (i_ctx _ _ V) as S.
  destruct command_table as (commands & T1 & T2).
  destruct (printed_slice _ _ 0 4 S) as (x1 & P1 & Q1); [lia|lia|]. destruct (printed_slice _ _ 4 22 S) as (x2 & P2 & Q2); [lia|lia|]. destruct (printed_slice _ _ 22 34 S) as (x3 & P3 & Q3); [lia|lia|].
  destruct (printed_slice _ _ 34 52 S) as (x4 & P4 & Q4); [lia|lia|]. destruct (printed_slice _ _ 52 58 S) as (x5 & P5 & Q5); [lia|lia|].
  assert (H : exists rest, cmd_help_shows L fuel s (str "help") =
      Done (Ok (Some (PTable commands :: flat_map (fun '(title, text) => [PText (heading title); PText text]) (combine (map fst manual) [x1; x2; x3; x4; x5]) ++ [PText [LF]] ++ rest))) /\ (defs = [] -> rest = []) /\
    (defs <> [] -> exists out functions, rest = [PText (str "User-defined functions and constants:" ++ [LF]); PTable out] /\
       Forall2 shown_function defs functions /\ map glyphs out = grid_picture [] (function_cells functions))).
  { unfold cmd_help_shows. change (streqb (str "help") (str "help")) with true. cbn iota. unfold print_short_help. rewrite T1. unfold sret at 1. cbn [sbind].
    change PSEUDO_IND with 0. change BASIC_IND with 4. change TRIG_IND with 22. change MISC_IND with 34. change CONST_IND with 52. change LAST_IND with 58.
    rewrite P1, P2, P3, P4, P5. cbn [of_res sbind]. pose proof (i_rules _ _ V) as F2. assert (Dd : defs = [] \/ defs <> []) by (destruct defs; [left; reflexivity|right; discriminate]). destruct Dd as [Ed|Nd].
    - subst defs. inversion F2. exists []. split; [reflexivity|]. split; [reflexivity|]. intros X. destruct (X eq_refl).
    - destruct (function_table L fuel sd files s defs R (ss_funs s) defs (fun x I => I) F2 Sh) as (functions & A1 & A2 & A3).
      assert (Ln : List.length functions = List.length defs) by (clear - A1; induction A1; cbn; congruence).
      destruct (function_picture functions) as (out & B1 & B2); [intros ->; destruct defs; [congruence|discriminate Ln]|exact A2|rewrite Ln; exact Sm|].
      assert (Lf : 0 <? List.length (ss_funs s) = true). { apply Nat.ltb_lt. destruct F2; [congruence|cbn; lia]. }
      rewrite Lf, A3. cbn [of_res sbind]. rewrite B1. exists [PText (str "User-defined functions and constants:" ++ [LF]); PTable out]. split; [reflexivity|]. split; [intros ->; congruence|]. intros _. exists out, functions. auto. }
  destruct H as (rest & H1 & H2 & H3). exists commands, groups, [x1; x2; x3; x4; x5], rest. split; [exact H1|]. split; [exact T2|].
  split. { unfold groups. cbn [map fst snd]. repeat (apply Forall2_cons; [assumption|]). apply Forall2_nil. }
  split; [exact groups_named|]. rewrite groups_all. split. { exact registry_distinct. }
  split; [apply known_operators; exact S|]. split; [exact H2|exact H3].
Qed.
(** `help operators` prints five tables: for every operator of the manual what the calculator knows about it, and the last result. *)
Theorem C76_operators : forall L fuel strtod files s defs, session_of L fuel strtod files any_function s defs ->
  exists t1 t2 t3 t4 t5 ops,
    cmd_help_shows L fuel s (str "help operators") =
      Done (Ok (Some [PText (str "Infix operators:" ++ [LF]); PTable t1; PText (heading "Prefix operators"); PTable t2; PText (heading "Postfix operators"); PTable t3;
        PText (heading "Functions"); PTable t4; PText (heading "Constants"); PTable t5])) /\
    map o_name ops = map (fun e => str (fst e)) entries /\ NoDup ops /\ (forall op, registered (ss_ctx s) op <-> In op ops \/ In op (map f_op defs)) /\
    map glyphs t1 = aligned_grid (infix_cells ops) /\ map glyphs t2 = aligned_grid (unary_cells PPrefix ops) /\ map glyphs t3 = aligned_grid (unary_cells PPostfix ops) /\
    map glyphs t4 = aligned_grid (callable_cells ops) /\ map glyphs t5 = aligned_grid (constant_cells (w_history (ss_world s)) ops).
Proof.
  intros L fuel sd files s defs R. pose proof (reach_inv _ _ _ _ _ _ _ R) as V. pose proof (i_ctx _ _ V) as S.
  destruct (tabled _ _ infix_calm infix_fits) as (t1 & A1 & B1). destruct (tabled _ _ prefix_calm prefix_fits) as (t2 & A2 & B2). destruct (tabled _ _ postfix_calm postfix_fits) as (t3 & A3 & B3).
  destruct (tabled _ _ function_calm function_fits) as (t4 & A4 & B4). set (h := w_history (ss_world s)). destruct (constants_tabled h) as (t5 & A5 & B5).
  exists t1, t2, t3, t4, t5, arith_registry.
  split. { unfold cmd_help_shows. change (streqb (str "help") (str "help operators")) with false. change (streqb (str "help operators") (str "help operators")) with true. cbn iota. unfold print_operators, print_op_table.
    change PSEUDO_IND with 0. change LAST_IND with 58. rewrite (slice _ _ 0 58 S) by lia. rewrite whole_registry. cbn [of_res sbind].
    rewrite infix_rows. unfold sret at 1. cbn [sbind]. fold infix_calls. rewrite A1. unfold sret at 1. cbn [sbind].
    rewrite prefix_rows. unfold sret at 1. cbn [sbind]. fold prefix_calls. rewrite A2. unfold sret at 1. cbn [sbind].
    rewrite postfix_rows. unfold sret at 1. cbn [sbind]. fold postfix_calls. rewrite A3. unfold sret at 1. cbn [sbind].
    rewrite callable_rows. unfold sret at 1. cbn [sbind]. fold function_calls. rewrite A4. unfold sret at 1. cbn [sbind].
    rewrite constant_table_rows. fold h. rewrite A5. reflexivity. }
  split; [exact entry_names|]. split. { exact registry_distinct. }
  split; [apply known_operators; exact S|]. auto.
Qed.

(** `license` prints the licence and changes nothing; other lines are not handled here. *)
Lemma license_shown : forall L fuel s l, cmd_help_shows L fuel s (str "license") = Done (Ok (Some [PText LICENSE])) /\ (~ is_help l -> cmd_help_shows L fuel s l = Done (Ok None)).
Proof.
  intros L fuel s l. split; [reflexivity|]. intros N. unfold cmd_help_shows. destruct (streqb (str "help") l) eqn:E1; [apply L_Trie.streqb_eq in E1; destruct N; left; auto|].
  destruct (streqb (str "help operators") l) eqn:E2; [apply L_Trie.streqb_eq in E2; destruct N; right; left; auto|]. destruct (streqb (str "license") l) eqn:E3; [apply L_Trie.streqb_eq in E3; destruct N; right; right; auto|]. reflexivity.
Qed.

(** Where g(x)=x+1 and h(x)=x+2 are defined *)
Definition help_lines (r : step (option (list printed))) : list string :=
  match r with
  | Done (Ok (Some ps)) => flat_map (fun p => match p with
      | PText t => [string_of_list_ascii (seen_text false t)]
      | PTable out => map (fun l => string_of_list_ascii (seen_text false (flat_map (fun g => match g with Char c => [c] | Line _ _ => [] end) (glyphs l)))) out
      end) ps
  | _ => []
  end.
Definition C76_lines (l : string) : list string := help_lines (cmd_help_shows no_libm 20 (state C38_session) (str l)).
Example C76_case : session_of no_libm 20 strtod no_files any_function (state C38_session) (functions C38_session) /\ Forall (fun f => shaped (f_body f)) (functions C38_session) /\
  map (fun k => nth k (C76_lines "help") ""%string) [0; 9; 18; 20; 21] =
    ["<func|const> = <after>                 Adds function or constant                                "; "$x @x x' deriv(2) "; String LF ""; "g(x) = x+1"; "h(x) = x+2"]%string /\
  List.length (C76_lines "help") = 22 /\
  firstn 8 (skipn 1 (C76_lines "help operators")) =
    [" Name  Precedence  Assoc.  Description          ";
     " +              2  Left    Addition             ";
     " -              2  Left    Subtraction          ";
     " *              4  Left    Multiplication       ";
     " /              3  Left    Division             ";
     " ^              5  Right   Exponentiation       ";
     " C              1  Left    Binomial coefficient ";
     " mod            1  Left    Modulo operator      "]%string.
Proof. split; [apply bare_reached; exact C38_lives|]. split; [vm_compute; repeat (apply Forall_cons; [repeat split|]); apply Forall_nil|]. split; [vm_compute; reflexivity|]. split; vm_compute; reflexivity. Qed.

Print Assumptions C76_overview.
Print Assumptions C76_operators.
