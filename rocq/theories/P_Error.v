(** C70: messages about faulty expressions point at the faulty part of the input. *)
From Coq Require Import List Ascii String NArith ZArith Bool Lia Arith.
From Coq.Floats Require Import SpecFloat.
From Verif Require Import M_Base M_StringUtil M_Tree M_Context M_Parser M_TreeUtil M_Match M_ArithCtx M_Double M_Eval M_Simplify M_Session M_Error
  S_Engine S_Tree S_Parse S_Match S_Session S_Error L_Tree L_Match L_Context L_ArithCtx L_SetUp L_Expand L_SessionCtx L_Session L_Reach L_SessionEx L_Error
  P_Context P_Parse P_Session M_Strtod P_Simplify.
From Verif Require L_Located L_Origin.
Import ListNotations.
Open Scope string_scope.
Open Scope list_scope.
Open Scope nat_scope.
Open Scope res_scope.

(** ** The marker *)
(** In interactive use, a message for the [len] characters beginning at column [pos] is one line in which the signs ^ and ~
    stand exactly below these characters (below the first of them if there are none). *)
Theorem C70_marker : forall pos len msg, plain msg ->
  marks (report_error_at true pos len msg) pos (Nat.max 1 len) /\ one_line_with (report_error_at true pos len msg) msg.
Proof. intros pos len msg P. split; [apply report_marks; auto|apply report_one_line]. Qed.
Theorem C70_not_interactive : forall pos len msg, report_error_at false pos len msg = msg ++ [NEWLINE].
Proof. reflexivity. Qed.
Example C70_marker_left : plain (str "Error: Division by zero") /\
  report_error_at true 25 3 (str "Error: Division by zero") = str " Error: Division by zero ~~^" ++ [NEWLINE].
Proof. split; [apply plainb_ok; vm_compute; reflexivity|vm_compute; reflexivity]. Qed.
Example C70_marker_right : report_error_at true 4 2 (str "Error: Division by zero") = str "    ^~ Error: Division by zero" ++ [NEWLINE].
Proof. vm_compute; reflexivity. Qed.
Print Assumptions C70_marker.

(** The claim for the messages of the commands: the marker is below the characters reported. It fails for those that end with
    a newline: far to the right the signs come on the next line (table 1;2;30000000000000000000000000;0). *)
Definition command_errors_marked : Prop := forall msg pos len, In msg command_messages -> marks (report_error_at true pos len msg) pos (Nat.max 1 len).
Theorem C70_command_errors_refuted : ~ command_errors_marked.
Proof.
  intros H. assert (I : In (str "Error: 'step' must not be zero" ++ [ascii_of_nat 10]) command_messages) by (vm_compute; tauto).
  specialize (H _ 37 1 I 37). destruct H as [_ H]. assert (K : 37 <= 37 < 37 + Nat.max 1 1) by (vm_compute; lia). apply H in K.
  revert K. unfold marked. assert (E : nth_error (first_line (report_error_at true 37 1 (str "Error: 'step' must not be zero" ++ [ascii_of_nat 10]))) 37 = None) by (vm_compute; reflexivity).
  rewrite E. intros [K|K]; discriminate K.
Qed.
(** It holds for the others, and for all where the message does not fit to the left. *)
Theorem C70_command_errors_partial : forall msg pos len, In msg command_messages -> ~ In NEWLINE msg \/ pos <= List.length msg ->
  marks (report_error_at true pos len msg) pos (Nat.max 1 len).
Proof.
  intros msg pos len I H. assert (F : forallb (fun m => L_Error.plainb m || (match rev m with c :: r => Ascii.eqb c NEWLINE && L_Error.plainb (rev r) | [] => false end)) command_messages = true) by (vm_compute; reflexivity).
  rewrite forallb_forall in F. specialize (F _ I). apply orb_true_iff in F. destruct F as [F|F]. { apply report_marks. apply plainb_ok. auto. }
  destruct (rev msg) as [|c r] eqn:R; [discriminate F|]. apply andb_true_iff in F. destruct F as [F1 F2]. apply Ascii.eqb_eq in F1. subst c.
  assert (E : msg = rev r ++ [NEWLINE]) by (rewrite <- (rev_involutive msg), R; reflexivity).
  destruct H as [H|H]. { exfalso. apply H. rewrite E. apply in_or_app. right. left. auto. }
  rewrite E in *. apply report_marks_right; auto. apply plainb_ok. auto.
Qed.
Example C70_command_case : In (str "Error: 'step' must not be zero" ++ [NEWLINE]) command_messages /\ 20 <= List.length (str "Error: 'step' must not be zero" ++ [NEWLINE]).
Proof. split; [vm_compute; tauto|vm_compute; lia]. Qed.
Print Assumptions C70_command_errors_refuted.
Print Assumptions C70_command_errors_partial.

(** ** Messages are those of the model of sessions *)
Definition tree_only {A} (r : step (session * (node + A))) : step (session * option node) :=
  sbind r (fun '(s, o) => sret (s, match o with inl t => Some t | inr _ => None end)).
(** The text does not change what happens: [arith_parse] with and without texts agree. *)
Theorem C70_same_outcome : forall L fuel strtod interactive s n input,
  tree_only (parse_text L fuel strtod interactive s n input) = arith_parse L fuel strtod s input.
Proof.
  intros L fuel sd inter s n input. unfold parse_text, arith_parse, parse_raw_text, arith_parse_raw, of_res.
  destruct (parse_input sd (ss_ctx s) input) as [[ts [t|e k|]]| |]; cbn [rbind sbind tree_only]; try reflexivity.
  - unfold simplify_text, arith_simplify, of_res. destruct (apply_ruleset fuel (fun _ => Ub) (ss_funs s) 0 t) as [[[t1 c]|]| |]; cbn [sbind]; try reflexivity.
    destruct (simplify L fuel (ss_ctx s) (ss_pc s) (ss_simp s) (ss_world s) t1) as [[[w [t2 [[code p]|]]]| |]|]; cbn [sbind]; try reflexivity.
    destruct (deref t2 p) as [m| |]; cbn [rbind sbind]; try reflexivity. unfold error_text, show_error_at_token. destruct (_ <? _); reflexivity.
  - unfold error_text, show_error_at_token. destruct (_ <? _); reflexivity.
Qed.
Print Assumptions C70_same_outcome.

(** ** Errors of the parser *)
(** The line typed is [pre ++ input ++ post]; [input] is parsed. The message is shown in one line below it, and the signs stand exactly below
    the token the parser rejects, or in the column behind the input if that ends too early. *)
Theorem C70_parse_error : forall L fuel strtod s pre input post ts e k, set_up (ss_ctx s) ->
  parse_input strtod (ss_ctx s) input = Ok (ts, PErr e k) ->
  exists out, parse_text L fuel strtod true s (List.length pre) input = Done (Ok (s, inr out)) /\
    one_line_with out (str "Error: " ++ perr_to_string e) /\
    match nth_error ts k with
    | Some t => t <> [] /\ typed_at (pre ++ input ++ post) (List.length pre + List.length (List.concat (firstn k ts))) t
                /\ marks out (List.length pre + List.length (List.concat (firstn k ts))) (List.length t)
    | None => marks out (List.length pre + List.length input) 1
    end.
Proof.
  intros L fuel sd s pre input post ts e k S E. destruct (C24_error_position _ _ _ _ _ _ S E) as (K & C & _).
  assert (Ne : Forall (fun t => t <> []) ts).
  { destruct (set_up_tokens _ S input) as (ts0 & E0 & _ & N0). unfold tokenize_with in E0. unfold parse_input in E. rewrite E0 in E. cbn [rbind] in E.
    destruct (parse_tokens sd (view (ss_ctx s)) ts0) as [o| |]; cbn [rbind] in E; try discriminate E. injection E as <- _. auto. }
  destruct (error_text_shows pre input post ts k (perr_to_string e) C K Ne (parse_message_plain e)) as (out & T & O & M).
  exists out. split; [|auto]. unfold parse_text, parse_raw_text, of_res. rewrite E. cbn [rbind]. rewrite T. reflexivity.
Qed.

(** ** Errors of the evaluation *)
(** A message of the evaluation is shown below a token of the input that was written for an operator or a number of the expression. *)
Theorem C70_evaluation_error : forall L fuel strtod files may_clear s defs pre input post ts t0 t1 n w t2 code p,
  session_of L fuel strtod files may_clear s defs -> (forall sm, ss_simp s = Some sm -> rewrites_no_variable sm) ->
  parse_input strtod (ss_ctx s) input = Ok (ts, PTree t0) ->
  apply_ruleset fuel (fun _ => Ub) (ss_funs s) 0 t0 = Ok (Some (t1, n)) ->
  simplify L fuel (ss_ctx s) (ss_pc s) (ss_simp s) (ss_world s) t1 = Done (Ok (w, (t2, Some (code, p)))) ->
  exists out culprit t, parse_text L fuel strtod true s (List.length pre) input = Done (Ok (with_world s w, inr out)) /\
    one_line_with out (str "Error: " ++ listenererr_to_str code) /\
    In culprit (nodes_of t0) /\ ~ variable culprit /\ nth_error ts (get_token_index culprit) = Some t /\
    is_space (hd NUL t) = false /\ written_as strtod (ss_ctx s) culprit t /\
    typed_at (pre ++ input ++ post) (List.length pre + List.length (List.concat (firstn (get_token_index culprit) ts))) t /\
    marks out (List.length pre + List.length (List.concat (firstn (get_token_index culprit) ts))) (List.length t).
Proof.
  intros L fuel sd files mc s defs pre input post ts t0 t1 n w t2 code p SO RV E R Si.
  pose proof (reach_inv _ _ _ _ _ _ _ SO) as V. pose proof (proj1 (proj2 (i_ctx _ _ V))) as S.
  destruct (set_up_tokens _ S input) as (ts0 & E0 & C & Ne). pose proof E as E1. unfold tokenize_with in E0. unfold parse_input in E1. rewrite E0 in E1. cbn [rbind] in E1.
  destruct (parse_tokens sd (view (ss_ctx s)) ts0) as [o| |] eqn:Pt; cbn [rbind] in E1; try discriminate E1. injection E1 as -> ->.
  pose proof (L_Origin.parse_stands _ _ _ _ Pt) as St.
  assert (H1 : L_Located.G (used t0) t1).
  { eapply L_Located.ruleset_good; [apply placed_self| |exact R]. pose proof (i_rules _ _ V) as F. clear - F. induction F; constructor; auto. eapply fun_headed; eauto. }
  destruct (L_Located.simplify_good (used t0) L fuel _ _ _ _ _ _ _ _ (fun sm Es => local_ok sm (RV sm Es)) H1 Si) as [G2 Pn].
  specialize (Pn _ _ eq_refl). destruct (L_Located.pinned_P _ _ _ G2 Pn) as (m & D & (c & Ic & Vc & Kc)).
  destruct (stands_written sd (ss_ctx s) ts c S (stands_nodes _ _ _ _ St _ Ic)) as (t & Tk & Sp & Wr).
  assert (K : get_token_index c <= List.length ts). { apply Nat.lt_le_incl. apply nth_error_Some. rewrite Tk. discriminate. }
  destruct (error_text_shows pre input post ts (get_token_index c) (listenererr_to_str code) C K Ne (eval_message_plain code)) as (out & T & O & M).
  change cstr with (list ascii) in Tk. rewrite Tk in M. destruct M as (Nt & Ty & Mk). exists out, c, t. split; [|auto 10].
  unfold parse_text, parse_raw_text, of_res. rewrite E. cbn [rbind sbind]. unfold simplify_text, of_res. rewrite R. cbn [sbind]. rewrite Si. cbn [sbind].
  rewrite D. cbn [rbind]. rewrite <- Kc, T. reflexivity.
Qed.

(** Examples: the shipped rules rewrite no variable; three faulty lines *)
Definition rewrites_no_variableb (sm : simp) : bool :=
  forallb (forallb (fun r => negb (L_Located.is_var (pt_tree (r_pat r))))) (s_rulesets sm)
  && match s_before sm with Some b => negb (L_Located.is_var (pt_tree b)) | None => true end
  && negb (L_Located.is_var (pt_tree (s_malformed sm)))
  && match s_after sm with Some (NOp _ [_; NVar _ _ _] _) => true | _ => false end.
Lemma rewrites_no_variableb_ok : forall sm, rewrites_no_variableb sm = true -> rewrites_no_variable sm.
Proof.
  intros sm H. unfold rewrites_no_variableb in H. rewrite !andb_true_iff in H. destruct H as [[[A B] C] D]. split; [|split; [|split]].
  - intros rs r I J. rewrite forallb_forall in A. specialize (A _ I). rewrite forallb_forall in A. apply not_var, negb_true_iff. auto.
  - intros b E. rewrite E in B. apply not_var, negb_true_iff. auto.
  - apply not_var, negb_true_iff. auto.
  - destruct (s_after sm) as [[| |op [|a [|[| x i k|] [|]]] j]|]; try discriminate D. exists op, a, (NVar x i k), j. split; auto. exists x, i, k. auto.
Qed.
Definition C70_session : option (session * list fundef) := full ["f(x)=1/x"].
Definition simp_fine (s : session) : bool := match ss_simp s with Some sm => rewrites_no_variableb sm | None => false end.
Lemma simp_fine_ok : forall s, simp_fine s = true -> ss_simp s <> None /\ forall sm, ss_simp s = Some sm -> rewrites_no_variable sm.
Proof. intros s H. unfold simp_fine in H. destruct (ss_simp s) as [sm|]; [|discriminate H]. split; [discriminate|]. intros sm' E. injection E as <-. apply rewrites_no_variableb_ok. auto. Qed.
Lemma C70_lives : lives C70_session = true /\ simp_fine (state C70_session) = true.
Proof. split; vm_compute; reflexivity. Qed.
Example C70_shipped : session_of no_libm 300 strtod shipped_files youngest (state C70_session) (functions C70_session) /\
  ss_simp (state C70_session) <> None /\ forall sm, ss_simp (state C70_session) = Some sm -> rewrites_no_variable sm.
Proof. split; [apply full_reached; apply C70_lives|apply simp_fine_ok; apply C70_lives]. Qed.
Definition text_in (x : option (session * list fundef)) (pre l : string) : option cstr :=
  match parse_text no_libm 300 strtod true (state x) (List.length (str pre)) (str l) with Done (Ok (_, inr out)) => Some out | _ => None end.
Example C70_texts :
  text_in (bare ["f(x)=1/x"]) "" "2 + f(1-1)" = Some (str "    ^ Error: Division by zero" ++ [NEWLINE]) /\
  text_in (bare ["f(x)=1/x"]) "" "1+(2*" = Some (str "     ^ Error: Unexpected end of expression" ++ [NEWLINE]) /\
  text_in (bare ["f(x)=1/x"]) "table " "1 + sin(2,3)" = Some (str "          ^~~ Error: Wrong number of operands of function" ++ [NEWLINE]).
Proof. repeat split; vm_compute; reflexivity. Qed.
Example C70_text_derivative :
  text_in C70_session "table " "(x*y)'" = Some (str "           ^ Error: More than one variable in expr'" ++ [NEWLINE]).
Proof. vm_compute. reflexivity. Qed.
Print Assumptions C70_parse_error.
Print Assumptions C70_evaluation_error.
