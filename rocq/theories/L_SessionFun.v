(** Calls of functions in reachable sessions (C38, C55). *)
From Coq Require Import List Ascii String NArith ZArith Bool Lia Arith.
From Verif Require Import M_Base M_StringUtil M_LinkedList M_Trie M_Tree M_Context M_Tokenizer M_Parser M_TreeUtil M_Match M_RuleParsing M_ArithCtx
  M_Double M_Eval M_Simplify M_Session
  S_Util S_Engine S_Parse S_Tree S_Match S_Session L_StringUtil L_LinkedList L_Trie L_Tokenizer L_Context P_Context L_ArithCtx L_SetUp L_Lex
  L_Tree L_Match L_MatchRule L_RuleParsing P_Parse L_Expand L_SessionCtx L_OpsKept L_Session L_SessionDef L_SessionCmd L_Reach.
Import ListNotations.
Open Scope list_scope.
Open Scope nat_scope.

Lemma NoDup_map_inj : forall A B (f : A -> B) l a b, NoDup (map f l) -> In a l -> In b l -> f a = f b -> a = b.
Proof.
  induction l as [|x l IH]; intros a b N Ia Ib E; [destruct Ia|]. cbn [map] in N. apply NoDup_cons_iff in N. destruct N as [N1 N2].
  destruct Ia as [->|Ia], Ib as [->|Ib]; auto.
  - exfalso. apply N1. rewrite E. apply in_map. auto.
  - exfalso. apply N1. rewrite <- E. apply in_map. auto.
Qed.
Lemma names_spec : forall f op, names f op = true <-> o_name op = o_name (f_op f) /\ o_place op = o_place (f_op f).
Proof.
  intros f op. unfold names. rewrite same_slot_spec. split; intros [A B]; auto.
Qed.
Lemma builtin_not_named : forall s defs op f, inv s defs -> builtin_like op -> In f defs -> names f op = false.
Proof.
  intros s defs op f V (b & Ib & Hn & Hp & Hi) If. destruct (names f op) eqn:N; auto. exfalso. apply names_spec in N. destruct N as [N P].
  destruct (sctx_unique (ss_ctx s) (map f_op defs) (f_op f) (i_ctx _ _ V)) as [_ U]. { apply in_map. auto. }
  apply (reg_find_None _ _ _ U b Ib); congruence.
Qed.
Lemma ids_right : forall s defs, inv s defs -> NoDup (map id_of defs) -> forall op n, known_call defs op n -> right_call defs op n.
Proof.
  intros s defs V ND op n K f If. pose proof (i_funs _ _ V) as F. rewrite Forall_forall in F. destruct K as [B|(g & Ig & -> & ->)].
  - pose proof (builtin_not_named _ _ _ _ V B If) as N. rewrite N. split; [|discriminate]. split; [|discriminate].
    intro E. apply builtin_id in B. destruct (F f If) as (_ & _ & _ & _ & K & _). lia.
  - assert (Q : names f (f_op g) = true -> f = g).
    { intro N. apply names_spec in N. destruct N as [N P].
      destruct (sctx_unique _ _ (f_op f) (i_ctx _ _ V) (in_map f_op _ _ If)) as [U1 _].
      destruct (sctx_unique _ _ (f_op g) (i_ctx _ _ V) (in_map f_op _ _ Ig)) as [U2 _].
      rewrite N, P in U2. rewrite U2 in U1. injection U1 as E. apply (NoDup_map_inj _ _ id_of defs); auto. unfold id_of. rewrite E. auto. }
    split; [split|].
    + intro E. assert (f = g). { apply (NoDup_map_inj _ _ id_of defs); auto. } subst g. apply names_spec. auto.
    + intro N. apply Q in N. subst. reflexivity.
    + intro N. apply Q in N. subst. reflexivity.
Qed.

(** ** Without functions that were cleared out of order, ids grow. *)
Section Reach.
Variable L : libm.
Variable fuel : nat.
Variable strtod : cstr -> option double.
Variable files : cstr -> option (list ascii).
Lemma reach_ordered : forall s defs, session_of L fuel strtod files youngest s defs -> map id_of defs = List.seq 58 (List.length defs).
Proof.
  intros s defs R. induction R as [files0 path rand s E|s defs d l s' o f R IH H B E D Fc|s defs d l s' o R IH H B E|s defs d s' o b R IH E
    |s d1 f d2 d l s' o R IH H N K M E|s defs d l s' o R IH H N E|s defs k d l s' o b R IH H I E|s defs path s' o b R IH E]; auto.
  - pose proof (reach_inv L fuel strtod files youngest _ _ R) as V. rewrite exec_definition in E by auto.
    destruct (accepted_defines _ _ _ _ _ _ _ _ V H B E) as (g & _ & _ & I & U & _). rewrite (U f D). rewrite map_app, IH, app_length, Nat.add_comm. cbn [List.length Nat.add map].
    rewrite seq_S. unfold id_of. rewrite I. reflexivity.
  - destruct M as (e & g & Eq & Nm). pose proof (reach_inv L fuel strtod files youngest _ _ R) as V.
    destruct (mid_unique (ss_ctx s) d1 f d2 e g []) as (-> & -> & ->); auto. { apply V. } { apply V. }
    rewrite app_nil_r. rewrite map_app, app_length in IH. cbn [map List.length] in IH. rewrite Nat.add_comm in IH. cbn [Nat.add] in IH. rewrite seq_S in IH.
    apply app_inj_tail in IH. apply IH.
Qed.
Lemma no_functions : forall fuel' ck t, 1 <= fuel' -> apply_ruleset fuel' ck [] 0 t = Ok (Some (t, 0)).
Proof. intros [|n] ck t H; [lia|]. reflexivity. Qed.
Lemma expansion_answer : forall fuel' s ts t t' k, 1 <= fuel' -> apply_ruleset fuel' (fun _ => Ub) (ss_funs s) 0 t = Ok (Some (t', k)) ->
  answer (arith_simplify L fuel' s ts t) = answer (arith_simplify L fuel' (with_funs s []) ts t').
Proof.
  intros fuel' s ts t t' k H E. unfold arith_simplify. rewrite E. change (ss_funs (with_funs s [])) with (@nil rule). rewrite no_functions by auto.
  cbn [of_res sbind]. change (ss_ctx (with_funs s [])) with (ss_ctx s). change (ss_pc (with_funs s [])) with (ss_pc s). change (ss_simp (with_funs s [])) with (ss_simp s). change (ss_world (with_funs s [])) with (ss_world s).
  generalize (simplify L fuel' (ss_ctx s) (ss_pc s) (ss_simp s) (ss_world s) t'). intros [[(w & (t2 & [(z & p)|]))| |]|]; try reflexivity.
  unfold answer. cbn [sbind of_res]. destruct (rbind (deref t2 p) (fun n => show_error_at_token ts (get_token_index n))); reflexivity.
Qed.
Theorem reach_expanded : forall s defs, session_of L fuel strtod files youngest s defs -> calls_expanded L strtod s defs.
Proof.
  intros s defs R input ts t P. pose proof (reach_inv L fuel strtod files youngest _ _ R) as V. pose proof (reach_ordered _ _ R) as O.
  assert (ND : NoDup (map id_of defs)). { rewrite O. apply seq_NoDup. }
  pose proof (ids_right _ _ V ND) as RC.
  assert (A : all_ops (right_call defs) t). { eapply all_ops_impl; [|eapply parsed_known; [exact V|reflexivity|eapply parsed_ops; [apply V|exact P]]]. auto. }
  assert (BN : forall f, In f defs -> all_ops (right_call defs) (f_body f)).
  { intros f If. pose proof (i_funs _ _ V) as F. rewrite Forall_forall in F. destruct (F f If) as (_ & _ & _ & _ & _ & _ & B).
    eapply all_ops_impl; [|exact B]. intros op n Hb. apply RC. left. exact Hb. }
  exists (S (wt defs (K defs) t)). intros fuel' Hf.
  destruct (expand_exact (fun _ => Ub) (ss_funs s) defs (i_rules _ _ V) (inv_params _ _ V) (inv_no_id _ _ V) ND BN fuel' t 0) as [k E]; auto.
  eapply expansion_answer; [lia|exact E].
Qed.
Variable may_clear : list fundef -> cstr -> Prop.
Lemma G_call_free : forall s defs t, inv s defs -> G builtin_like t -> call_free defs t.
Proof.
  intros s defs t V H op I (f & If & N). pose proof (proj1 (G_operators _ _) H op I) as Hb. rewrite (builtin_not_named s defs op f V Hb If) in N. discriminate N.
Qed.
Theorem reach_ends : forall s defs, session_of L fuel strtod files may_clear s defs -> forall input ts t, parse_input strtod (ss_ctx s) input = Ok (ts, PTree t) ->
  exists m t' k, call_free defs t' /\ forall fuel', m <= fuel' -> apply_ruleset fuel' (fun _ => Ub) (ss_funs s) 0 t = Ok (Some (t', k)) /\
    answer (arith_simplify L fuel' s ts t) = answer (arith_simplify L fuel' (with_funs s []) ts t').
Proof.
  intros s defs R input ts t P. pose proof (reach_inv L fuel strtod files may_clear _ _ R) as V.
  assert (A : all_ops (known_call defs) t). { eapply parsed_known; [exact V|reflexivity|eapply parsed_ops; [apply V|exact P]]. }
  destruct (expand_loop (fun _ => Ub) (ss_funs s) defs (i_rules _ _ V) (inv_params _ _ V) (inv_no_id _ _ V) (fun _ => True)) with (n := S (wt defs (K defs) t)) (t := t) (c := 0) as (t' & k & E & _ & _); auto.
  exists (S (wt defs (K defs) t)), t', k. split. { eapply G_call_free; [exact V|]. eapply expanded; eauto. }
  intros fuel' Hf. assert (A' : apply_ruleset fuel' (fun _ => Ub) (ss_funs s) 0 t = Ok (Some (t', k))). { unfold apply_ruleset. eapply ruleset_more; eauto. }
  split; [exact A'|]. eapply expansion_answer; [lia|exact A'].
Qed.
(** Every line without square brackets that is not a load command leads to a session of this kind. *)
Theorem reach_covers : forall s defs k d l s' o b, session_of L fuel strtod files any_function s defs -> (forall sm, ss_simp s = Some sm -> own_operators sm) -> handles k l -> k <> KLoad -> ~ In "["%char l ->
  exec_command L fuel strtod files (S d) s l = Done (Ok (Did s' o b)) -> exists defs', session_of L fuel strtod files any_function s' defs'.
Proof.
  intros s defs k d l s' o b R Own H NL B E. pose proof (reach_inv L fuel strtod files any_function _ _ R) as V. destruct k; try contradiction.
  - exists defs. eapply so_other; eauto. cbn; auto.
  - exists defs. eapply so_other; eauto. cbn; auto.
  - destruct b.
    + pose proof E as E'. rewrite exec_definition in E' by auto. destruct (accepted_defines _ _ _ _ _ _ _ _ V H B E') as (f & _ & D & _ & _ & _ & _ & _ & _ & Fc & _). exists (defs ++ [f]). eapply so_define; eauto.
    + exists defs. eapply so_rejected; eauto.
  - destruct (name_dec l (str "clear")) as [->|N]; [exists []; eapply so_clear_all; eauto|]. destruct b.
    + pose proof E as E'. rewrite exec_clear in E' by auto. destruct (clear_named _ _ _ V (not_just_clear _ N)) as [C|[_ C]].
      * destruct C as (d1 & f & d2 & s2 & -> & Q & _). exists (d1 ++ d2). eapply so_clear; eauto. exact Logic.I.
      * rewrite C in E'. discriminate E'.
    + exists defs. eapply so_clear_nothing; eauto.
  - exists defs. eapply so_other; eauto. cbn; auto.
Qed.
End Reach.
