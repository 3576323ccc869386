(** Input that does not concern user-defined functions (C78), and loading simplification rules (C79). *)
From Coq Require Import List Ascii String NArith ZArith Bool Lia Arith.
From Coq.Floats Require Import SpecFloat.
From Verif Require Import M_Base M_StringUtil M_Trie M_Tree M_Context M_Tokenizer M_Parser M_TreeUtil M_Match M_RuleParsing M_ArithCtx
  M_Double M_Eval M_Simplify M_Session M_Strtod
  S_Util S_Engine S_Parse S_Tree S_Match S_Rules S_Session S_Load L_StringUtil L_Trie L_Tokenizer L_Context P_Context L_ArithCtx L_SetUp L_Lex
  L_Tree L_Match L_MatchRule P_Parse L_Expand L_SessionCtx L_OpsKept L_Session L_SessionDef L_SessionCmd L_Reach L_SessionFun L_SessionEx L_Agree S_Simplify  L_Constraint P_Session P_Simplify P_Rules P_Constraint P_Deriv.
Import ListNotations.
Open Scope string_scope.
Open Scope list_scope.
Open Scope nat_scope.
Open Scope res_scope.

(** ** C78 *)
Theorem C78_reading : forall L fuel strtod files s defs, session_of L fuel strtod files any_function s defs ->
  forall input ts, words_of input ts -> ~ mentions defs ts -> parse_input strtod (ss_ctx s) input = parse_input strtod the_arith_ctx input.
Proof. intros L fuel sd files s defs R input ts T M. apply (session_reads sd (ss_ctx s) defs input ts); auto. apply (reach_inv _ _ _ _ _ _ _ R). Qed.
Lemma parsed_builtin : forall strtod input ts t, parse_input strtod the_arith_ctx input = Ok (ts, PTree t) -> all_ops (fun op _ => builtin_like op) t.
Proof.
  intros sd input ts t P. eapply all_ops_impl; [|exact (parsed_ops sd the_arith_ctx [] input ts t sctx_init P)]. intros op n (I & _). rewrite app_nil_r in I. exists op. auto.
Qed.
Theorem C78_answers : forall L fuel strtod files s defs, session_of L fuel strtod files any_function s defs ->
  forall d l ts, handles KEvaluation l -> words_of l ts -> ~ mentions defs ts ->
  cmd_outcome (exec_command L fuel strtod files (S d) s l) = cmd_outcome (exec_command L fuel strtod files (S d) (without_functions s) l).
Proof.
  intros L fuel sd files s defs R d l ts H T M. rewrite !exec_evaluation by exact H. pose proof (reach_inv _ _ _ _ _ _ _ R) as V. pose proof (C78_reading _ _ _ _ _ _ R l ts T M) as P.
  unfold cmd_evaluation_exec, arith_parse, arith_parse_raw. change (ss_ctx (without_functions s)) with the_arith_ctx. rewrite P.
  destruct (parse_input sd the_arith_ctx l) as [[tk o]| |] eqn:E; cbn [rbind of_res sbind]; try reflexivity.
  destruct o as [t|e i|]; cbn [rbind of_res sbind]; try reflexivity.
  - pose proof (parsed_builtin _ _ _ _ E) as B. unfold arith_simplify. rewrite (nothing_called fuel _ s defs t V B). change (ss_funs (without_functions s)) with (@nil rule).
    destruct (apply_ruleset fuel (fun _ => Ub) [] 0 t) as [[[t1 k]|]| |]; cbn [of_res sbind]; try reflexivity.
    change (ss_ctx (without_functions s)) with the_arith_ctx. change (ss_pc (without_functions s)) with (ss_pc s). change (ss_simp (without_functions s)) with (ss_simp s). change (ss_world (without_functions s)) with (ss_world s).
    rewrite (simplify_ctx L fuel (ss_ctx s) the_arith_ctx (ss_pc s) (ss_simp s) (ss_world s) t1 (session_minus _ _ (i_ctx _ _ V))).
    destruct (simplify L fuel the_arith_ctx (ss_pc s) (ss_simp s) (ss_world s) t1) as [[(w & (t2 & [(z & p)|]))| |]|]; cbn [sbind of_res]; try reflexivity.
    + destruct (n <- deref t2 p;; show_error_at_token tk (get_token_index n)) as [u| |]; reflexivity.
    + destruct t2; reflexivity.
  - destruct (show_error_at_token tk i) as [u| |]; reflexivity.
Qed.
Notation C78_session := (bare ["f(x)=x*x+1"; "g(x,y)=f(x)*y"]).
Definition C78_words : list cstr := Eval vm_compute in match tokenize (fun x => fst (trie_longest_prefix (c_kw the_arith_ctx) x)) (str "sum(2,3)*fx+2") with Ok ts => ts | _ => [] end.
Lemma C78_lives : lives C78_session = true. Proof. vm_compute. reflexivity. Qed.
Lemma C78_cut : words_of (str "sum(2,3)*fx+2") C78_words. Proof. vm_compute. reflexivity. Qed.
Lemma C78_names : map (fun f => o_name (f_op f)) (functions C78_session) = [str "f"; str "g"]. Proof. vm_compute. reflexivity. Qed.
Lemma C78_silent : forall defs ns ts, map (fun f => o_name (f_op f)) defs = ns -> forallb (fun n => negb (existsb (streqb n) ts)) ns = true -> ~ mentions defs ts.
Proof.
  intros defs ns ts <- H (f & If & I). rewrite forallb_forall in H. specialize (H _ (in_map (fun f => o_name (f_op f)) _ _ If)). apply negb_true_iff in H. assert (K : existsb (streqb (o_name (f_op f))) ts = true); [|congruence].
  apply existsb_exists. exists (o_name (f_op f)). split; [exact I|]. apply L_Trie.streqb_eq. reflexivity.
Qed.
Example C78_case : session_of no_libm 20 strtod no_files any_function (state C78_session) (functions C78_session) /\ handles KEvaluation (str "sum(2,3)*fx+2") /\
  words_of (str "sum(2,3)*fx+2") C78_words /\ ~ mentions (functions C78_session) C78_words.
Proof.
  split; [exact (bare_reached _ C78_lives)|]. split; [exact (kind_of_ok (str "sum(2,3)*fx+2"))|]. split; [exact C78_cut|]. exact (C78_silent _ _ C78_words C78_names eq_refl).
Qed.
Print Assumptions C78_reading.
Print Assumptions C78_answers.

(** ** C79 *)
Lemma bind_ok : forall A B (x : res A) (f : A -> step B) r, sbind (of_res x) f = Done (Ok r) -> exists a, x = Ok a /\ f a = Done (Ok r).
Proof. intros A B [a| |] f r E; try discriminate E. eauto. Qed.
Lemma rbind_ok : forall A B (x : res A) (f : A -> res B) r, rbind x f = Ok r -> exists a, x = Ok a /\ f a = Ok r.
Proof. intros A B [a| |] f r E; try discriminate E. eauto. Qed.
Lemma loads : forall L fuel strtod files d s path, handles KLoad (str "load simplification " ++ path) ->
  exec_command L fuel strtod files (S d) s (str "load simplification " ++ path) = load_simplification strtod files s path.
Proof.
  intros L fuel sd files d s path H. rewrite (C52_dispatch _ _ _ _ _ _ _ _ H). unfold cmd_load_exec.
  assert (B : begins_with LOAD_SIMPLIFICATION (str "load simplification " ++ path) = true) by (apply begins_with_spec; exists path; reflexivity). rewrite B. reflexivity.
Qed.
(** Nothing but the rules changes; afterwards either the rules of the file or none at all are in force. *)
Lemma init_loaded : forall sd g pc file sm k, init_simplification sd g pc file = Ok (ILoaded sm k) ->
  exists content, file = Some content /\ parse_rulesets_from_file sd pc content (repeat [] NUM_RULESETS) = Ok (Some (s_rulesets sm, NUM_RULESETS)).
Proof.
  intros sd g pc [content|] sm k I; [|discriminate I]. exists content. split; [reflexivity|]. unfold init_simplification in I.
  apply rbind_ok in I. destruct I as (r & P & I). rewrite P. clear P. destruct r as [[sets n]|]; [|discriminate I].
  destruct (n =? NUM_RULESETS) eqn:En; [|discriminate I]. apply Nat.eqb_eq in En.
  apply rbind_ok in I. destruct I as (x & _ & I). apply rbind_ok in I. destruct I as (a & _ & I). apply rbind_ok in I. destruct I as (m & _ & I).
  destruct m as [m|]; [|discriminate I]. destruct x as [t|]; [|discriminate I]. apply P_Constraint.okinj in I. apply iloaded_inj in I. rewrite <- I, En. reflexivity.
Qed.
Lemma only_simp : forall s o, only_rules s (with_simp s o). Proof. intros s o. repeat split. Qed.
Lemma load_cases : forall sd files s path s' o b, load_simplification sd files s path = Done (Ok (Did s' o b)) ->
  (exists sm k, init_simplification sd (ss_ctx s) (ss_pc s) (files path) = Ok (ILoaded sm k) /\ s' = with_simp s (Some sm) /\ o = [] /\ b = true) \/ s' = with_simp s None.
Proof.
  intros sd files s path s' o b E. unfold load_simplification in E. apply bind_ok in E. destruct E as (r & I & E). destruct r as [| |sm0 k].
  - right. injection E as E _ _. symmetry. exact E.
  - right. injection E as E _ _. symmetry. exact E.
  - left. exists sm0, k. injection E as E1 E2 E3. auto.
Qed.
Theorem C79_only_rules : forall L fuel strtod files d s path s' o b, handles KLoad (str "load simplification " ++ path) ->
  exec_command L fuel strtod files (S d) s (str "load simplification " ++ path) = Done (Ok (Did s' o b)) ->
  only_rules s s' /\
  (forall sm, ss_simp s' = Some sm -> exists content, files path = Some content /\ parse_rulesets_from_file strtod (ss_pc s) content (repeat [] 7) = Ok (Some (s_rulesets sm, 7)) /\ o = [] /\ b = true).
Proof.
  intros L fuel sd files d s path s' o b H E. rewrite loads in E by exact H. apply load_cases in E. destruct E as [(sm & k & I & -> & Eo & Eb)| ->]; (split; [apply only_simp|]).
  - cbn [with_simp ss_simp]. intros sm' X. apply P_Constraint.someinj in X. subst sm'. apply init_loaded in I. destruct I as (content & Fc & P). exists content. auto.
  - cbn [with_simp ss_simp]. intros sm X. discriminate X.
Qed.
(** The context of rules never changes. *)
Lemma init_rules : forall sd files path rand s c, init_propositional_ctx = Ok c -> init_commands sd files path rand = Ok s -> ss_pc s = c.
Proof.
  intros sd files path rand s c. unfold init_commands. generalize get_arith_ctx init_propositional_ctx. intros x y -> E. apply rbind_ok in E. destruct E as (g & _ & E). cbn [rbind] in E. apply rbind_ok in E. destruct E as (r & _ & E).
  apply P_Constraint.okinj in E. rewrite <- E. reflexivity.
Qed.
Lemma rule_context : forall L fuel strtod files s defs, session_of L fuel strtod files any_function s defs -> ss_pc s = the_prop_ctx.
Proof.
  intros L fuel sd files s defs R. induction R as [files0 path rand s E|s defs d l s' o f R IH H NB E D Fc|s defs d l s' o R IH H NB E|s defs d s' o b R IH E|s d1 f d2 d l s' o R IH H N Sk M E|s defs d l s' o R IH H N E|s defs k d l s' o b R IH H Ik E|s defs path s' o b R IH E].
  - exact (init_rules _ _ _ _ _ _ (proj1 prop_ctx_ok) E).
  - rewrite exec_definition in E by auto. destruct (accepted_defines _ _ _ _ _ _ _ _ (reach_inv _ _ _ _ _ _ _ R) H NB E) as (f0 & _ & _ & _ & _ & _ & _ & P & _). congruence.
  - rewrite exec_definition in E by auto. destruct (rejected_keeps _ _ _ _ _ _ _ _ (reach_inv _ _ _ _ _ _ _ R) H NB E) as (_ & (P & _) & _). congruence.
  - rewrite exec_clear in E by apply clear_kind. destruct (clear_ok _ _ (reach_inv _ _ _ _ _ _ _ R)) as (s2 & C & V & (P & _)). unfold cmd_clear_exec in E. change (streqb CLEAR_COMMAND (str "clear")) with true in E. cbn iota in E.
    rewrite C in E. cbn [of_res sbind] in E. injection E as <- _ _. congruence.
  - rewrite exec_clear in E by auto. destruct (clear_named _ _ l (reach_inv _ _ _ _ _ _ _ R) (not_just_clear _ N)) as [(e1 & g & e2 & s2 & Ed & En & Er & V & (P & _) & _)|[A Er]]; rewrite E in Er; [|discriminate Er]. injection Er as <- _. congruence.
  - rewrite exec_clear in E by auto. destruct (clear_named _ _ l (reach_inv _ _ _ _ _ _ _ R) (not_just_clear _ N)) as [(e1 & g & e2 & s2 & Ed & En & Er & V & _)|[A Er]]; rewrite E in Er; [discriminate Er|]. injection Er as <- _. congruence.
  - assert (W : world_only s s').
    { destruct Ik as [<-|[<-|[<-|[]]]].
      - rewrite exec_help in E by auto. injection E as <- _ _. apply wo_refl.
      - rewrite exec_table in E by auto. eapply (proj1 (table_both L fuel sd s l)); eauto.
      - rewrite exec_evaluation in E by auto. eapply (proj1 (eval_both L fuel sd s l)); eauto. }
    destruct W as [w ->]. exact IH.
  - unfold load_simplification in E. apply bind_ok in E. destruct E as ([| |sm n] & _ & E); injection E as <- _ _; exact IH.
Qed.
Definition xz_words (i : string) : list cstr := match tokenize (fun x => fst (trie_longest_prefix (c_kw the_arith_ctx) x)) (str i) with Ok ts => ts | _ => [] end.
Lemma x_words : words_of (str "x'") [str "x"; str "'"]. Proof. vm_compute. reflexivity. Qed.
Lemma xz_words_are : words_of (str "deriv(x, z)") [str "deriv"; str "("; str "x"; str ","; str " "; str "z"; str ")"]. Proof. vm_compute. reflexivity. Qed.
Lemma taken_names : forallb (fun n => negb (match reg_find arith_registry n PFunction with None => true | Some _ => false end) || negb (forallb is_letter n)) [str "deriv"; str "'"; str "("; str ","; str " "; str ")"] = true.
Proof. vm_compute. reflexivity. Qed.
Lemma user_name : forall L fuel strtod files s defs f, session_of L fuel strtod files any_function s defs -> In f defs -> ~ In (o_name (f_op f)) [str "deriv"; str "'"; str "("; str ","; str " "; str ")"].
Proof.
  intros L fuel sd files s defs f R I J. pose proof (reach_inv _ _ _ _ _ _ _ R) as V. pose proof (i_funs _ _ V) as F. rewrite Forall_forall in F. destruct (F f I) as (Pl & _ & Ln & _).
  destruct (sctx_unique _ _ _ (i_ctx _ _ V) (in_map f_op _ _ I)) as [_ U]. rewrite Pl in U. pose proof taken_names as T. rewrite forallb_forall in T. specialize (T _ J). rewrite U in T. cbn [negb orb] in T. apply negb_true_iff in T.
  assert (K : forallb is_letter (o_name (f_op f)) = true); [|congruence]. apply forallb_forall. intros c Ic. rewrite Forall_forall in Ln. apply L_Tokenizer.is_letter_spec. apply Ln. exact Ic.
Qed.
(** A file with seven sections of rules is loaded, provided the user has not defined functions x or z. *)
Theorem C79_loaded : forall L fuel files d s defs path pre secs rss, session_of L fuel strtod files any_function s defs ->
  ~ mentions defs [str "x"; str "z"] -> handles KLoad (str "load simplification " ++ path) ->
  files path = Some (S_Rules.file_of (pre ++ flat_map S_Rules.section_lines secs)) -> List.length secs = 7 ->
  Forall S_Rules.plain_line (pre ++ flat_map S_Rules.section_lines secs) -> Forall (fun l => ~ S_Rules.is_header l) pre -> Forall S_Rules.well_formed secs ->
  Forall2 (fun (sec : S_Rules.section) rs => Forall2 (fun text r => parse_rule strtod (ss_pc s) text = Ok (Some r)) (S_Rules.rule_texts (snd sec)) rs) secs rss ->
  exists sm, exec_command L fuel strtod files (S d) s (str "load simplification " ++ path) = Done (Ok (Did (with_simp s (Some sm)) [] true)) /\
    s_rulesets sm = rss /\ s_before sm <> None /\ s_after sm <> None.
Proof.
  intros L fuel files d s defs path pre secs rss R M H F Len P1 P2 P3 P4. rewrite loads by exact H. unfold load_simplification. rewrite F.
  assert (Mx : ~ mentions defs [str "x"; str "'"]).
  { intros (f & If & [E|[E|[]]]); [apply M; exists f; split; [exact If|left; exact E]|]. apply (user_name _ _ _ _ _ _ f R If). rewrite <- E. right. left. reflexivity. }
  assert (Mz : ~ mentions defs [str "deriv"; str "("; str "x"; str ","; str " "; str "z"; str ")"]).
  { intros (f & If & I). assert (K : In (o_name (f_op f)) [str "x"; str "z"] \/ In (o_name (f_op f)) [str "deriv"; str "'"; str "("; str ","; str " "; str ")"]).
    { destruct I as [E|[E|[E|[E|[E|[E|[E|[]]]]]]]]; rewrite <- E; [right|right|left|right|right|left|right]; cbn [In]; tauto. }
    destruct K as [K|K]; [apply M; exists f; auto|exact (user_name _ _ _ _ _ _ f R If K)]. }
  assert (Ex : parse_easy strtod (ss_ctx s) (str "x'") = Ok (Some x_prime)) by (unfold parse_easy; rewrite (C78_reading _ _ _ _ _ _ R _ _ x_words Mx); exact x_prime_parsed).
  assert (Ez : parse_easy strtod (ss_ctx s) (str "deriv(x, z)") = Ok (Some (NOp the_deriv [NVar (str "x") 0 2; NVar (str "z") 0 5] 0))) by (unfold parse_easy; rewrite (C78_reading _ _ _ _ _ _ R _ _ xz_words_are Mz); exact after_parsed).
  pose proof (rule_context _ _ _ _ _ _ R) as Pc. rewrite Pc in *.
  assert (Pr : parse_rulesets_from_file strtod the_prop_ctx (S_Rules.file_of (pre ++ flat_map S_Rules.section_lines secs)) (repeat [] 7) = Ok (Some (rss, 7))).
  { rewrite (C59_rule_files_partial strtod the_prop_ctx 7 pre secs rss P1 P2 P3); [|rewrite Len; apply Nat.le_refl|exact P4]. rewrite Len. cbn [Nat.sub repeat Nat.min]. rewrite app_nil_r.
    assert (Lr : List.length rss = 7) by (rewrite <- Len; symmetry; clear - P4; induction P4; [reflexivity|cbn [List.length]; congruence]). rewrite firstn_all2 by (rewrite Lr; apply Nat.le_refl). reflexivity. }
  change 7 with NUM_RULESETS in Pr. unfold init_simplification. rewrite Pr. cbn [rbind]. rewrite Nat.eqb_refl. rewrite Ex, Ez, malformed_parsed. cbn [rbind]. rewrite x_prime_pattern. cbn [of_res sbind].
  eexists. split; [reflexivity|]. split; [reflexivity|]. split; discriminate.
Qed.
(** A file that cannot be read is reported as a failure, but the rules that were in force are gone. *)
Theorem C79_unreadable : forall L fuel strtod files d s path, handles KLoad (str "load simplification " ++ path) -> files path = None ->
  exec_command L fuel strtod files (S d) s (str "load simplification " ++ path) = Done (Ok (Did (with_simp s None) [SError] false)).
Proof. intros L fuel sd files d s path H F. rewrite loads by exact H. unfold load_simplification. rewrite F. reflexivity. Qed.
(** Success is reported for a malformed file although no rules are in force afterwards. *)
Definition C79_files : cstr -> option (list ascii) := fun p =>
  if streqb p (str "bad") then Some (text [str "RULESET"; str "x+0"]) else
  if streqb p (str "good") then Some (text (flat_map (fun r => [str "RULESET"; str r]) ["x+0->x"; "x*1->x"; "x-x->0"; "x/x->1"; "x+x->2*x"; "0*x->0"; "x^1->x"])) else None.
Definition C79_after (ls : list string) : option (session * list fundef) := tracked no_libm 20 C79_files true (str "rules") ls.
Lemma C79_reached : forall ls, lives (C79_after ls) = true -> session_of no_libm 20 strtod C79_files any_function (state (C79_after ls)) (functions (C79_after ls)).
Proof.
  intros ls H. assert (S : sound no_libm 20 C79_files true (C79_after ls)) by apply tracked_sound. revert H S. generalize (C79_after ls). intros [[s d]|] H S; [|discriminate H]. exact (S s d eq_refl).
Qed.
Lemma C79_start : lives (C79_after []) = true. Proof. vm_compute. reflexivity. Qed.
Definition success_without_rules (r : step cmdres) : bool := match r with Done (Ok (Did s _ true)) => match ss_simp s with None => true | Some _ => false end | _ => false end.
Lemma C79_bad : success_without_rules (exec_command no_libm 20 strtod C79_files 1 (state (C79_after [])) (str "load simplification bad")) = true.
Proof. vm_compute. reflexivity. Qed.
Theorem C79_success_refuted : ~ (forall L fuel files d s defs path s' o, session_of L fuel strtod files any_function s defs -> handles KLoad (str "load simplification " ++ path) ->
  exec_command L fuel strtod files (S d) s (str "load simplification " ++ path) = Done (Ok (Did s' o true)) -> ss_simp s' <> None).
Proof.
  intros H.
  assert (K : forall r, (forall s' o, r = Done (Ok (Did s' o true)) -> ss_simp s' <> None) -> success_without_rules r = true -> False).
  { intros [[[s' o []|]| |]|] Q X; try discriminate X. apply (Q s' o eq_refl). cbn in X. destruct (ss_simp s'); [discriminate X|reflexivity]. }
  exact (K _ (fun s' o => H no_libm 20 C79_files 0 (state (C79_after [])) (functions (C79_after [])) (str "bad") s' o (C79_reached [] C79_start) (kind_of_ok (str "load simplification bad"))) C79_bad).
Qed.
(** After a function x has been defined, loading a proper file crashes. *)
Lemma C79_x : lives (C79_after ["x(a)=a"]) = true. Proof. vm_compute. reflexivity. Qed.
Lemma C79_crash : exec_command no_libm 20 strtod C79_files 1 (state (C79_after ["x(a)=a"])) (str "load simplification good") = Done Ub. Proof. vm_compute. reflexivity. Qed.
Theorem C79_crash_refuted : ~ (forall L fuel files d s defs path, session_of L fuel strtod files any_function s defs -> handles KLoad (str "load simplification " ++ path) ->
  exec_command L fuel strtod files (S d) s (str "load simplification " ++ path) <> Done Ub).
Proof. intros H. exact (H no_libm 20 C79_files 0 _ _ (str "good") (C79_reached _ C79_x) (kind_of_ok (str "load simplification good")) C79_crash). Qed.
(** In a session with another function the same file loads. *)
Lemma C79_f : lives (C79_after ["f(x)=x*x"]) = true. Proof. vm_compute. reflexivity. Qed.
Lemma C79_good : match exec_command no_libm 20 strtod C79_files 1 (state (C79_after ["f(x)=x*x"])) (str "load simplification good") with
  Done (Ok (Did s _ true)) => match ss_simp s with Some sm => map (@List.length rule) (s_rulesets sm) = [1; 1; 1; 1; 1; 1; 1] | None => False end | _ => False end.
Proof. vm_compute. reflexivity. Qed.
Lemma C79_names : map (fun f => o_name (f_op f)) (functions (C79_after ["f(x)=x*x"])) = [str "f"]. Proof. vm_compute. reflexivity. Qed.
Example C79_case : session_of no_libm 20 strtod C79_files any_function (state (C79_after ["f(x)=x*x"])) (functions (C79_after ["f(x)=x*x"])) /\
  ~ mentions (functions (C79_after ["f(x)=x*x"])) [str "x"; str "z"] /\ handles KLoad (str "load simplification good").
Proof. split; [exact (C79_reached _ C79_f)|]. split; [exact (C78_silent _ _ [str "x"; str "z"] C79_names eq_refl)|]. exact (kind_of_ok (str "load simplification good")). Qed.
Print Assumptions C79_only_rules.
Print Assumptions C79_loaded.
Print Assumptions C79_unreadable.
Print Assumptions C79_success_refuted.
Print Assumptions C79_crash_refuted.
