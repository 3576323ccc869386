(** Lemmas about error messages (C70). *)
From Coq Require Import List Ascii String NArith ZArith Bool Lia Arith.
From Verif Require Import M_Base M_StringUtil M_Tree M_Context M_Parser M_TreeUtil M_Match M_Double M_Eval M_Simplify M_Session M_Error
  S_Engine S_Tree S_Parse S_Match S_Session S_Error L_Tree L_Match L_Context L_SetUp L_Expand L_SessionCtx L_Session.
From Verif Require L_Located L_Origin.
Import ListNotations.
Open Scope list_scope.
Open Scope nat_scope.
Open Scope res_scope.

(** ** The marker *)
Definition sign (c : ascii) : Prop := c = "^"%char \/ c = "~"%char.
Lemma first_line_app : forall body rest, ~ In NEWLINE body -> first_line (body ++ NEWLINE :: rest) = body.
Proof.
  induction body as [|c body IH]; intros rest N; cbn [app first_line]; [reflexivity|].
  destruct (Ascii.eqb_spec c NEWLINE) as [->|H]; [exfalso; apply N; left; auto|]. f_equal. apply IH. intro I. apply N. right. auto.
Qed.
Lemma marks_middle : forall a m b rest, ~ In NEWLINE (a ++ m ++ b) -> Forall sign m -> Forall (fun c => ~ sign c) (a ++ b) ->
  marks ((a ++ m ++ b) ++ NEWLINE :: rest) (List.length a) (List.length m).
Proof.
  intros a m b rest N M AB c. unfold marked. rewrite first_line_app by auto. apply Forall_app in AB. destruct AB as [Fa Fb].
  rewrite Forall_forall in M, Fa, Fb. destruct (lt_dec c (List.length a)) as [H|H].
  - rewrite nth_error_app1 by lia. split; [|lia]. intros K. exfalso. destruct K as [K|K]; apply nth_error_In in K; apply (Fa _ K); unfold sign; auto.
  - rewrite nth_error_app2 by lia. destruct (lt_dec c (List.length a + List.length m)) as [H2|H2].
    + rewrite nth_error_app1 by lia. split; [lia|]. intros _. destruct (nth_error m (c - List.length a)) as [x|] eqn:E; [|apply nth_error_None in E; lia].
      apply nth_error_In in E. destruct (M _ E) as [->| ->]; auto.
    + rewrite nth_error_app2 by lia. split; [|lia]. intros K. exfalso. destruct K as [K|K]; apply nth_error_In in K; apply (Fb _ K); unfold sign; auto.
Qed.
Lemma in_repeat : forall (x y : ascii) n, In x (repeat y n) -> x = y.
Proof. intros x y n I. eapply repeat_spec; eauto. Qed.
Lemma blanks_fine : forall n, Forall (fun c => ~ sign c) (repeat BLANK n) /\ ~ In NEWLINE (repeat BLANK n).
Proof.
  intros n. split; [|intros I; apply in_repeat in I; discriminate I]. apply Forall_forall. intros x I. apply in_repeat in I. subst. intros [H|H]; discriminate H.
Qed.
Lemma plain_fine : forall msg, plain msg -> Forall (fun c => ~ sign c) msg.
Proof. intros msg (_ & A & B). apply Forall_forall. intros x I [->| ->]; auto. Qed.
Lemma tildes_fine : forall n, Forall sign (repeat "~"%char n) /\ ~ In NEWLINE (repeat "~"%char n).
Proof.
  intros n. split; [|intros I; apply in_repeat in I; discriminate I]. apply Forall_forall. intros x I. apply in_repeat in I. subst. right. auto.
Qed.
Lemma report_marks : forall pos len msg, plain msg -> marks (report_error_at true pos len msg) pos (Nat.max 1 len).
Proof.
  intros pos len msg P. pose proof (plain_fine _ P) as Pm. destruct P as (N & _). unfold report_error_at. change (ascii_of_nat 10) with NEWLINE.
  assert (B1 : ~ sign BLANK) by (intros [H|H]; discriminate H). assert (B2 : BLANK <> NEWLINE) by discriminate.
  destruct (tildes_fine (len - 1)) as [T1 T2].
  destruct (Nat.ltb_spec (List.length msg) pos) as [H|H].
  - destruct (blanks_fine (pos - List.length msg - 1)) as [F1 F2].
    set (bl := repeat BLANK (pos - List.length msg - 1)) in *. assert (Lb : List.length bl = pos - List.length msg - 1) by apply repeat_length. clearbody bl.
    set (ti := repeat "~"%char (len - 1)) in *. assert (Lt : List.length ti = len - 1) by apply repeat_length. clearbody ti.
    replace (bl ++ msg ++ [BLANK] ++ ti ++ ["^"%char]) with ((bl ++ msg ++ [BLANK]) ++ (ti ++ ["^"%char]) ++ []) by (rewrite app_nil_r, <- !app_assoc; reflexivity).
    replace pos with (List.length (bl ++ msg ++ [BLANK])) by (rewrite !app_length; cbn [List.length]; lia).
    replace (Nat.max 1 len) with (List.length (ti ++ ["^"%char])) by (rewrite app_length; cbn [List.length]; lia).
    apply marks_middle.
    + rewrite app_nil_r. rewrite !in_app_iff. intros K. destruct K as [[K|[K|K]]|[K|K]]; try tauto; destruct K as [K|[]]; [exact (B2 K)|discriminate K].
    + apply Forall_app. split; auto. constructor; [left; auto|constructor].
    + rewrite app_nil_r. apply Forall_app. split; auto. apply Forall_app. split; auto.
  - destruct (blanks_fine pos) as [F1 F2]. set (bl := repeat BLANK pos) in *. assert (Lb : List.length bl = pos) by apply repeat_length. clearbody bl.
    set (ti := repeat "~"%char (len - 1)) in *. assert (Lt : List.length ti = len - 1) by apply repeat_length. clearbody ti.
    replace (bl ++ ["^"%char] ++ ti ++ [BLANK] ++ msg) with (bl ++ (["^"%char] ++ ti) ++ ([BLANK] ++ msg)) by (rewrite <- !app_assoc; reflexivity).
    subst pos. replace (Nat.max 1 len) with (List.length (["^"%char] ++ ti)) by (rewrite app_length; cbn [List.length]; lia).
    apply marks_middle.
    + rewrite !in_app_iff. intros K. destruct K as [K|[[K|K]|[K|K]]]; try tauto; destruct K as [K|[]]; [discriminate K|exact (B2 K)].
    + apply Forall_app. split; auto. constructor; [left; auto|constructor].
    + apply Forall_app. split; auto. apply Forall_app. split; auto.
Qed.
Lemma report_marks_right : forall pos len msg rest, plain msg -> pos <= List.length (msg ++ NEWLINE :: rest) -> marks (report_error_at true pos len (msg ++ NEWLINE :: rest)) pos (Nat.max 1 len).
Proof.
  intros pos len msg rest P Hp. pose proof (plain_fine _ P) as Pm. destruct P as (N & _). unfold report_error_at. change (ascii_of_nat 10) with NEWLINE.
  assert (B1 : ~ sign BLANK) by (intros [H|H]; discriminate H). assert (B2 : BLANK <> NEWLINE) by discriminate.
  destruct (tildes_fine (len - 1)) as [T1 T2].
  destruct (Nat.ltb_spec (List.length (msg ++ NEWLINE :: rest)) pos) as [H|H]; [lia|]. clear Hp H.
  destruct (blanks_fine pos) as [F1 F2]. set (bl := repeat BLANK pos) in *. assert (Lb : List.length bl = pos) by apply repeat_length. clearbody bl.
  set (ti := repeat "~"%char (len - 1)) in *. assert (Lt : List.length ti = len - 1) by apply repeat_length. clearbody ti.
  replace ((bl ++ ["^"%char] ++ ti ++ [BLANK] ++ msg ++ NEWLINE :: rest) ++ [NEWLINE]) with ((bl ++ (["^"%char] ++ ti) ++ ([BLANK] ++ msg)) ++ NEWLINE :: (rest ++ [NEWLINE]))
    by (rewrite <- ?app_assoc; cbn [app]; rewrite <- ?app_assoc; cbn [app]; reflexivity).
  subst pos. replace (Nat.max 1 len) with (List.length (["^"%char] ++ ti)) by (rewrite app_length; cbn [List.length]; lia).
  apply marks_middle.
  - rewrite !in_app_iff. intros K. destruct K as [K|[[K|K]|[K|K]]]; try tauto; destruct K as [K|[]]; [discriminate K|exact (B2 K)].
  - apply Forall_app. split; auto. constructor; [left; auto|constructor].
  - apply Forall_app. split; auto. apply Forall_app. split; auto.
Qed.
Lemma report_one_line : forall pos len msg, one_line_with (report_error_at true pos len msg) msg.
Proof.
  intros pos len msg. unfold report_error_at. change (ascii_of_nat 10) with NEWLINE.
  assert (R : forall c n, (c = BLANK \/ c = "^"%char \/ c = "~"%char) -> Forall (fun c => c = " "%char \/ c = "^"%char \/ c = "~"%char) (repeat c n)).
  { intros c n H. apply Forall_forall. intros x I. apply in_repeat in I. subst. auto. }
  destruct (List.length msg <? pos).
  - exists (repeat BLANK (pos - List.length msg - 1)), ([BLANK] ++ repeat "~"%char (len - 1) ++ ["^"%char]). split; [rewrite <- !app_assoc; reflexivity|].
    apply Forall_app. split; [apply R; auto|]. apply Forall_app. split; [constructor; auto|]. apply Forall_app. split; [apply R; auto|constructor; auto].
  - exists (repeat BLANK pos ++ ["^"%char] ++ repeat "~"%char (len - 1) ++ [BLANK]), []. split; [rewrite <- !app_assoc; reflexivity|].
    rewrite app_nil_r. apply Forall_app. split; [apply R; auto|]. apply Forall_app. split; [constructor; auto|]. apply Forall_app. split; [apply R; auto|constructor; auto].
Qed.

(** ** Messages *)
Definition plainb (msg : cstr) : bool := forallb (fun c => negb (Ascii.eqb c NEWLINE || Ascii.eqb c "^"%char || Ascii.eqb c "~"%char)) msg.
Lemma plainb_ok : forall msg, plainb msg = true -> plain msg.
Proof.
  intros msg H. unfold plainb in H. rewrite forallb_forall in H.
  assert (K : forall c, In c msg -> c <> NEWLINE /\ c <> "^"%char /\ c <> "~"%char).
  { intros c I. specialize (H c I). apply negb_true_iff, orb_false_iff in H. destruct H as [H1 H2]. apply orb_false_iff in H1. destruct H1 as [H0 H1].
    apply Ascii.eqb_neq in H0. apply Ascii.eqb_neq in H1. apply Ascii.eqb_neq in H2. auto. }
  repeat split; intros I; apply K in I; tauto.
Qed.
Lemma parse_message_plain : forall e, plain (str "Error: " ++ perr_to_string e).
Proof. intros []; apply plainb_ok; vm_compute; reflexivity. Qed.
Lemma eval_message_plain : forall code, plain (str "Error: " ++ listenererr_to_str code).
Proof.
  intros code. apply plainb_ok. unfold listenererr_to_str.
  repeat match goal with |- context [(?a =? ?b)%Z] => destruct (a =? b)%Z; [vm_compute; reflexivity|] end. vm_compute; reflexivity.
Qed.

(** ** Positions *)
Lemma sum_lengths : forall (l : list cstr) p, fold_left (fun p t => p + List.length t) l p = p + List.length (List.concat l).
Proof. induction l as [|t l IH]; intros p; cbn [fold_left List.concat]; [simpl; lia|]. rewrite IH, app_length. lia. Qed.
Lemma error_text_shows : forall pre input post ts k message, List.concat ts = input -> k <= List.length ts -> Forall (fun t => t <> []) ts -> plain (str "Error: " ++ message) ->
  exists out, error_text true ts k message (List.length pre) = Ok out /\ one_line_with out (str "Error: " ++ message) /\
    match nth_error ts k with
    | Some t => t <> [] /\ typed_at (pre ++ input ++ post) (List.length pre + List.length (List.concat (firstn k ts))) t
                /\ marks out (List.length pre + List.length (List.concat (firstn k ts))) (List.length t)
    | None => marks out (List.length pre + List.length input) 1
    end.
Proof.
  intros pre input post ts k message C K Ne P. unfold error_text. unfold cstr in *. destruct (_ <? k) eqn:Hk. { apply Nat.ltb_lt in Hk. exfalso. apply (Nat.lt_irrefl k). eapply Nat.le_lt_trans; eauto. }
  eexists. split; [reflexivity|]. split; [apply report_one_line|]. rewrite sum_lengths. destruct (nth_error ts k) as [t|] eqn:E.
  - assert (Nt : t <> []) by (rewrite Forall_forall in Ne; apply Ne; eapply nth_error_In; eauto). split; auto. split.
    + apply nth_error_split in E. destruct E as (l1 & l2 & -> & <-). rewrite firstn_app, firstn_all, Nat.sub_diag. simpl firstn. rewrite app_nil_r.
      exists (pre ++ List.concat l1), (List.concat l2 ++ post). split; [|rewrite app_length; reflexivity].
      subst input. rewrite concat_app. cbn [List.concat]. rewrite <- !app_assoc. reflexivity.
    + assert (Lm : Nat.max 1 (List.length t) = List.length t) by (destruct t; [congruence|cbn [List.length]; lia]). match goal with |- marks (report_error_at _ ?p ?l ?m) _ _ => pose proof (report_marks p l m P) as RM end. rewrite Lm in RM. exact RM.
  - apply nth_error_None in E. rewrite firstn_all2 by lia. rewrite C. apply (report_marks _ 1). auto.
Qed.

(** ** Where the position of a node of the parsed tree points *)
Lemma var_is : forall n, L_Located.is_var n = true <-> variable n.
Proof. intros [v k|x i k|op cs k]; simpl; split; intros H; try discriminate; try (destruct H as (? & ? & ? & H); discriminate H); auto. exists x, i, k. auto. Qed.
Lemma not_var : forall n, ~ variable n <-> L_Located.is_var n = false.
Proof. intros n. rewrite <- var_is. apply not_true_iff_false. Qed.
(** Token [k] is that of an operator or number of the tree. *)
Definition used (t0 : node) (k : nat) : Prop := exists n, In n (nodes_of t0) /\ ~ variable n /\ get_token_index n = k.
Lemma placed_self : forall t0, L_Located.placed (used t0) t0.
Proof.
  intros t0. assert (K : forall t, (forall n, In n (nodes_of t) -> In n (nodes_of t0)) -> L_Located.placed (used t0) t).
  { induction t as [v k|x i k|op cs k IH] using node_ind'; intros H.
    - exists (NConst v k). split; [apply H; left; auto|]. split; [intros (? & ? & ? & E); discriminate E|reflexivity].
    - exact Logic.I.
    - apply L_Located.G_op. split.
      + exists (NOp op cs k). split; [apply H; left; auto|]. split; [intros (? & ? & ? & E); discriminate E|reflexivity].
      + rewrite Forall_forall in *. intros c Ic. apply IH; auto. intros n In_. apply H. right. apply in_flat_map. eauto. }
  apply K. auto.
Qed.
Lemma stands_nodes : forall sd pc ts t, L_Origin.stands sd pc ts t -> forall n, In n (nodes_of t) -> L_Origin.stands sd pc ts n.
Proof.
  intros sd pc ts. induction t as [v k|x i k|op cs k IH] using node_ind'; intros S n I; cbn [nodes_of] in I; destruct I as [<-|I]; auto; try (destruct I; fail).
  apply in_flat_map in I. destruct I as (c & Ic & In_). apply L_Origin.stands_op in S. destruct S as [_ S]. rewrite Forall_forall in *. eauto.
Qed.
Lemma stands_written : forall sd c ts n, set_up c -> L_Origin.stands sd (view c) ts n ->
  exists t, nth_error ts (get_token_index n) = Some t /\ is_space (hd NUL t) = false /\ written_as sd c n t.
Proof.
  intros sd c ts n S H. destruct n as [v k|x i k|op cs k].
  - destruct H as (t & A & B & C). exists t. auto.
  - destruct H as (A & B). exists x. auto. repeat split; auto.
  - apply L_Origin.stands_op in H. destruct H as [(t & A & B & C) _]. exists t. split; auto. split; auto. destruct C as [C|(p & C)].
    + right. unfold view in C. cbn [pc_glue] in C. destruct (ctx_glue c) as [o| |] eqn:E; try discriminate C. subst o. reflexivity.
    + left. cbn [view pc_lookup] in C. destruct (set_up_crep c S) as (r & Cr & _). rewrite (lookup_crep _ _ _ _ Cr) in C. apply reg_find_In in C. tauto.
Qed.
Lemma fun_headed : forall r f, rule_for r f -> L_Located.headed r.
Proof.
  assert (LV : forall n buf, L_Located.is_var n = false -> L_Located.is_var (fst (fst (list_variables n buf))) = false).
  { intros [v k|x i k|op cs k] buf V; [reflexivity|discriminate V|]. unfold list_variables. cbn [list_variables_rec].
    match goal with |- context [let '(_, _) := ?x in (NOp _ _ _, _)] => destruct x as [l [f|]] end; reflexivity. }
  intros r f (vs & k & pat & _ & _ & P & R). unfold L_Located.headed.
  assert (Vp : L_Located.is_var (pt_tree pat) = false).
  { unfold get_pattern in P. pose proof (LV (NOp (f_op f) vs k) MAX_MAPPED_VARS eq_refl) as X.
    destruct (list_variables (NOp (f_op f) vs k) MAX_MAPPED_VARS) as [[t' [vars|]] n]; [|discriminate P].
    destruct (add_constraints _ _ _); [|discriminate P]. injection P as <-. exact X. }
  unfold get_rule in R. pose proof (LV (pt_tree pat) MAX_MAPPED_VARS Vp) as X.
  match type of R with (let '(_, _) := ?x in _) = _ => destruct x as [[|] a1] end; [|discriminate R].
  destruct (list_variables (pt_tree pat) MAX_MAPPED_VARS) as [[t' vars] n]. injection R as <-. exact X.
Qed.
Lemma local_ok : forall sm, rewrites_no_variable sm -> L_Located.local sm.
Proof.
  intros sm (A & B & C & (op & a & z & k & D & (x & i & j & ->))). split; [|split; [|split]].
  - apply Forall_forall. intros rs Irs. apply Forall_forall. intros r Ir. apply not_var. eauto.
  - intros b Eb. apply not_var. auto.
  - apply not_var. auto.
  - exists op, a, x, i, j, k. auto.
Qed.
