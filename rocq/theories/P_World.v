(** C80: an expression that does not refer to earlier results or to chance has one answer, whatever was evaluated before. *)
From Coq Require Import List Ascii String NArith ZArith Bool Lia Arith.
From Coq.Floats Require Import SpecFloat.
From Verif Require Import M_Base M_StringUtil M_Trie M_Tree M_Context M_Tokenizer M_Parser M_TreeUtil M_Match M_RuleParsing M_ArithCtx
  M_Double M_Eval M_Simplify M_Session M_Strtod
  S_Util S_Engine S_Parse S_Tree S_Match S_Rules S_Session S_World L_StringUtil L_Trie L_Tokenizer L_Context P_Context L_ArithCtx L_SetUp L_Lex
  L_Tree L_Match L_MatchRule P_Parse L_Expand L_SessionCtx L_OpsKept L_Session L_SessionDef L_SessionCmd L_Reach L_SessionFun L_SessionEx L_World P_Session P_Simplify.
Import ListNotations.
Open Scope string_scope.
Open Scope list_scope.
Open Scope nat_scope.
Open Scope res_scope.
Notation GQ := (L_OpsKept.G quiet).

Lemma refers_spec : forall i, In i [1; 48; 57] -> exists b, nth_error arith_ops i = Some b /\ In (o_name b) [str "@"; str "rand"; str "ans"].
Proof. intros i [<-|[<-|[<-|[]]]]; (eexists; split; [vm_compute; reflexivity|]); [left|right; left|right; right; left]; reflexivity. Qed.
Lemma silent_quiet : forall op, ~ refers_back op -> quiet op.
Proof. intros op N. repeat split; intros E; apply N; unfold refers_back; rewrite E; apply refers_spec; cbn [In]; auto. Qed.
Lemma silent_good : forall t, self_contained t -> GQ t.
Proof. intros t S. apply G_operators. intros op I. apply silent_quiet. unfold self_contained in S. rewrite Forall_forall in S. auto. Qed.
Lemma silent_pattern : forall p, self_contained_pattern p -> pgood quiet p.
Proof. intros p S. unfold self_contained_pattern, pgood in *. rewrite Forall_forall in *. intros cs I. specialize (S cs I). rewrite Forall_forall in *. intros c Ic. apply silent_good. auto. Qed.
Lemma silent_rules : forall sm, self_contained_rules sm -> sgood sm.
Proof.
  intros sm (A & B & C). split; [|split; [apply silent_pattern; exact B|intros a E; apply silent_good; auto]].
  apply Forall_forall. intros rs Ir. apply Forall_forall. intros r I. destruct (A rs r Ir I). split; [apply silent_pattern|apply silent_good]; auto.
Qed.
Lemma minus_quiet : forall c us m, sctx c us -> minus_op c = Ok m -> quiet m.
Proof.
  intros c us m S E. pose proof (minus_builtin _ _ _ S E) as (b & I & N & P & Ei). unfold minus_op in E. rewrite (lookup_crep _ _ _ _ (proj1 S)) in E. cbn [rbind] in E. rewrite reg_find_app in E.
  assert (K : match reg_find arith_registry (str "-") PPrefix with Some o => o_id o = 12 | None => False end) by (vm_compute; reflexivity).
  destruct (reg_find arith_registry (str "-") PPrefix) as [o|]; [|destruct K]. injection E as <-. unfold quiet. rewrite K. repeat split; discriminate.
Qed.
Lemma listed_good : forall n buf f, GQ n -> GQ (fst (list_variables_rec n buf f)).
Proof.
  induction n as [v k|x i k|op cs k IH] using node_ind'; intros buf f Gn; cbn [list_variables_rec]; destruct f as [vs|]; try exact Logic.I; auto.
  - destruct (index_of x vs); [exact Logic.I|]. destruct (_ <? _); exact Logic.I.
  - apply G_op in Gn. destruct Gn as [Qo Gc].
    match goal with |- L_OpsKept.G quiet (fst match ?x with _ => _ end) => assert (K : Forall GQ (fst x)); [|destruct x; apply G_op; auto] end.
    generalize (Some vs). induction cs as [|c cs IHc]; intros f; [constructor|]. inversion IH; subst. inversion Gc; subst.
    pose proof (H1 buf f H3) as Hc. destruct (list_variables_rec c buf f) as [c' f1]. specialize (IHc H2 H4 f1).
    match goal with |- context [match ?x with pair _ _ => _ end] => destruct x as [l'' f2] end. constructor; auto.
Qed.
Lemma copied_good : forall vars n, GQ n -> GQ (tree_copy_IDs n vars).
Proof.
  intros vars. induction n as [v k|x i k|op cs k IH] using node_ind'; intros Gn; cbn [tree_copy_IDs]; auto; [destruct (index_of x vars); exact Logic.I|].
  apply G_op in Gn. destruct Gn as [Qo Gc]. apply G_op. split; auto. rewrite Forall_forall in *. intros c I. apply in_map_iff in I. destruct I as (c' & <- & I). auto.
Qed.
Lemma rule_silent : forall r f, rule_for r f -> GQ (f_body f) -> GQ (r_after r).
Proof.
  intros r f (vs & k & pat & _ & _ & _ & E) Gb. unfold get_rule in E.
  match type of E with match ?x with pair a b => _ end = _ => assert (K : GQ (snd x)); [|destruct x as [ok after1]] end.
  - destruct (0 <? _); [|exact Gb]. pose proof (listed_good (f_body f) MAX_MAPPED_VARS (Some []) Gb) as X. unfold list_variables. destruct (list_variables_rec (f_body f) MAX_MAPPED_VARS (Some [])) as [a [b|]]; exact X.
  - cbn [snd] in K. destruct ok; [|discriminate E]. destruct (list_variables (pt_tree pat) MAX_MAPPED_VARS) as [[tree' vars] n]. injection E as <-. cbn [r_after]. apply copied_good. exact K.
Qed.
Lemma funs_silent : forall rs defs, Forall2 rule_for rs defs -> Forall (fun f => self_contained (f_body f)) defs -> Forall (fun r => GQ (r_after r)) rs.
Proof. intros rs defs F S. induction F as [|r f rs defs R F IH]; [constructor|]. inversion S; subst. constructor; [|auto]. eapply rule_silent; [exact R|]. apply silent_good. auto. Qed.

(** ** The theorems *)
Theorem C80_one_answer : forall L fuel strtod files may_clear s defs, session_of L fuel strtod files may_clear s defs ->
  Forall (fun f => self_contained (f_body f)) defs -> (forall sm, ss_simp s = Some sm -> self_contained_rules sm) ->
  forall l, handles KEvaluation l -> (forall ts t, parse_input strtod (ss_ctx s) l = Ok (ts, PTree t) -> self_contained t) ->
  forall d w w', answers_alike s w w' (exec_command L fuel strtod files (S d) (with_past s w) l) (exec_command L fuel strtod files (S d) (with_past s w') l).
Proof.
  intros L fuel sd files mc s defs R Fd Sr l H Sl d w w'. pose proof (reach_inv _ _ _ _ _ _ _ R) as V. rewrite !exec_evaluation by exact H.
  unfold cmd_evaluation_exec, arith_parse, arith_parse_raw. cbn [with_past ss_ctx].
  assert (Fail : answers_alike s w w' (failed (with_past s w)) (failed (with_past s w'))) by (left; exists [SError], false, None; split; reflexivity).
  assert (Bad : forall r, r = Done Ub \/ r = Done Halt \/ r = Forever -> answers_alike s w w' r r) by (intros r X; right; auto).
  destruct (parse_input sd (ss_ctx s) l) as [[tk o]| |] eqn:P; cbn [rbind of_res sbind]; auto.
  destruct o as [t|e i|]; cbn [rbind of_res sbind]; auto.
  2: { destruct (show_error_at_token tk i) as [u| |]; cbn [rbind of_res sbind]; auto. }
  specialize (Sl _ _ eq_refl). apply silent_good in Sl. unfold arith_simplify. cbn [with_past ss_ctx ss_funs ss_pc ss_simp ss_world].
  destruct (apply_ruleset fuel (fun _ => Ub) (ss_funs s) 0 t) as [[[t1 k]|]| |] eqn:A; cbn [of_res sbind]; auto.
  assert (G1 : GQ t1) by (eapply ruleset_good; [exact Sl|exact (funs_silent _ _ (i_rules _ _ V) Fd)|exact A]).
  destruct (simplify_same L fuel w w' (ss_ctx s) (ss_pc s) (ss_simp s) t1) as [([t2 [[z p]|]] & -> & ->)|[<- N]].
  - intros m. apply minus_quiet with (us := map f_op defs). apply (i_ctx _ _ V).
  - intros sm E. apply silent_rules. auto.
  - exact G1.
  - cbn [sbind]. destruct (n <- deref t2 p;; show_error_at_token tk (get_token_index n)) as [u| |]; cbn [of_res sbind]; auto.
  - cbn [sbind]. destruct t2 as [v j|x i j|op cs j].
    + left. exists [SResult (NConst v j)], true, (Some v). split; reflexivity.
    + left. exists [SResult (NVar x i j)], true, None. split; reflexivity.
    + left. exists [SResult (NOp op cs j)], true, None. split; reflexivity.
  - destruct (simplify L fuel (ss_ctx s) (ss_pc s) (ss_simp s) w t1) as [[x| |]|]; [exfalso; eapply N; reflexivity| | |]; cbn [sbind]; auto.
Qed.
(** The same line again, with anything in between that changes only the history and the random numbers: the same answer *)
Theorem C80_again : forall L fuel strtod files may_clear s defs, session_of L fuel strtod files may_clear s defs ->
  Forall (fun f => self_contained (f_body f)) defs -> (forall sm, ss_simp s = Some sm -> self_contained_rules sm) ->
  forall l, handles KEvaluation l -> (forall ts t, parse_input strtod (ss_ctx s) l = Ok (ts, PTree t) -> self_contained t) ->
  forall d s1 o b, exec_command L fuel strtod files (S d) s l = Done (Ok (Did s1 o b)) ->
  w_rand (ss_world s1) = w_rand (ss_world s) /\
  forall w, exists s2, exec_command L fuel strtod files (S d) (with_past s1 w) l = Done (Ok (Did s2 o b)).
Proof.
  intros L fuel sd files mc s defs R Fd Sr l H Sl d s1 o b E. assert (Es : with_past s (ss_world s) = s) by (destruct s; reflexivity).
  assert (K : exists v, s1 = with_past s (entered v (ss_world s))).
  { destruct (C80_one_answer _ _ _ _ _ _ _ R Fd Sr l H Sl d (ss_world s) (ss_world s)) as [(o1 & b1 & v & X & _)|[_ X]]; rewrite Es, E in X.
    - injection X as -> _ _. eauto.
    - destruct X as [X|[X|X]]; discriminate X. }
  destruct K as (v & ->). split; [destruct v; reflexivity|]. intros w.
  destruct (C80_one_answer _ _ _ _ _ _ _ R Fd Sr l H Sl d (ss_world s) w) as [(o1 & b1 & v1 & X & Y)|[_ X]]; rewrite Es, E in X.
  - injection X as _ -> ->. exists (with_past s (entered v1 w)). exact Y.
  - destruct X as [X|[X|X]]; discriminate X.
Qed.
(** A session with the shipped rules and two functions meets the hypotheses; the history and chance would change the other line. *)
Definition backb (op : operator) : bool := match nth_error arith_ops (o_id op) with Some b => existsb (streqb (o_name b)) [str "@"; str "rand"; str "ans"] | None => false end.
Definition selfb (t : node) : bool := forallb (fun op => negb (backb op)) (operators_of t).
Definition patb (p : pattern) : bool := forallb (forallb selfb) (pt_constraints p).
Definition simpb (sm : simp) : bool :=
  forallb (forallb (fun r => patb (r_pat r) && selfb (r_after r))) (s_rulesets sm) && (patb (s_malformed sm) && match s_after sm with Some a => selfb a | None => true end).
Lemma backb_ok : forall op, backb op = false -> ~ refers_back op.
Proof.
  intros op H (b & E & I). unfold backb in H. rewrite E in H. assert (K : existsb (streqb (o_name b)) [str "@"; str "rand"; str "ans"] = true); [|congruence].
  apply existsb_exists. exists (o_name b). split; [exact I|]. apply L_Trie.streqb_eq. reflexivity.
Qed.
Lemma selfb_ok : forall t, selfb t = true -> self_contained t.
Proof. intros t H. unfold selfb in H. rewrite forallb_forall in H. apply Forall_forall. intros op I. apply backb_ok. apply negb_true_iff. auto. Qed.
Lemma patb_ok : forall p, patb p = true -> self_contained_pattern p.
Proof. intros p H. unfold patb in H. rewrite forallb_forall in H. apply Forall_forall. intros cs I. specialize (H cs I). rewrite forallb_forall in H. apply Forall_forall. intros c Ic. apply selfb_ok. auto. Qed.
Lemma simpb_ok : forall sm, simpb sm = true -> self_contained_rules sm.
Proof.
  intros sm H. apply andb_true_iff in H. destruct H as [A B]. apply andb_true_iff in B. destruct B as [B C]. split; [|split; [apply patb_ok; exact B|]].
  - intros rs r Ir I. rewrite forallb_forall in A. specialize (A rs Ir). rewrite forallb_forall in A. specialize (A r I). apply andb_true_iff in A. destruct A. split; [apply patb_ok|apply selfb_ok]; auto.
  - intros a E. rewrite E in C. apply selfb_ok. exact C.
Qed.
Notation C80_session := (full ["f(x)=x^2+1"; "g(x,y)=f(x)*y"]).
Definition simp_silent (s : session) : bool := match ss_simp s with Some sm => simpb sm | None => false end.
Lemma simp_silent_ok : forall s, simp_silent s = true -> forall sm, ss_simp s = Some sm -> self_contained_rules sm.
Proof. intros s H sm E. unfold simp_silent in H. rewrite E in H. apply simpb_ok. exact H. Qed.
Lemma funs_silent_ok : forall defs, forallb (fun f => selfb (f_body f)) defs = true -> Forall (fun f => self_contained (f_body f)) defs.
Proof. intros defs H. rewrite forallb_forall in H. apply Forall_forall. intros f I. apply selfb_ok. auto. Qed.
Definition line_silent (s : session) (l : string) : bool := match parse_input strtod (ss_ctx s) (str l) with Ok (_, PTree t) => selfb t | _ => false end.
Lemma line_silent_ok : forall s l, line_silent s l = true -> forall ts t, parse_input strtod (ss_ctx s) (str l) = Ok (ts, PTree t) -> self_contained t.
Proof. intros s l H ts t E. unfold line_silent in H. rewrite E in H. apply selfb_ok. exact H. Qed.
Lemma C80_lives : lives C80_session = true. Proof. vm_compute. reflexivity. Qed.
Lemma C80_rules : simp_silent (state C80_session) = true. Proof. vm_compute. reflexivity. Qed.
Lemma C80_bodies : forallb (fun f => selfb (f_body f)) (functions C80_session) = true. Proof. vm_compute. reflexivity. Qed.
Lemma C80_line : line_silent (state C80_session) "g(3,x)+2*x" = true. Proof. vm_compute. reflexivity. Qed.
Lemma C80_number : line_silent (state C80_session) "g(3,2)-1" = true. Proof. vm_compute. reflexivity. Qed.
Lemma C80_other : line_silent (state C80_session) "ans+1" = false. Proof. vm_compute. reflexivity. Qed.
Example C80_case := C80_one_answer _ _ _ _ _ _ _ (full_reached _ C80_lives) (funs_silent_ok _ C80_bodies) (simp_silent_ok _ C80_rules) _ (kind_of_ok (str "g(3,x)+2*x")) (line_silent_ok _ _ C80_line).
Print Assumptions C80_one_answer.
Print Assumptions C80_again.
