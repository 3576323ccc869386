(** Theorems about the parser: C16-C21, C24. *)
From Coq Require Import List Ascii String NArith ZArith Bool Lia Arith Permutation.
From Verif Require Import M_Base M_StringUtil M_Trie M_Tree M_Context M_Tokenizer M_Parser M_ArithCtx M_Strtod
  S_Engine S_Parse L_Trie L_Context L_Parser L_ParserSound L_ParserInv L_ParserBal L_ParserBlank L_ParserExact
  L_ArithCtx P_Context L_SetUp L_Lex.
Import ListNotations.
Open Scope string_scope.
Open Scope list_scope.
Open Scope nat_scope.
Open Scope res_scope.

(** ** C16 *)
(** False: a delimiter in a parenthesis that is not an argument list dereferences a null pointer. *)
Theorem C16_parse_total_refuted :
  ~ (forall strtod c input, set_up c -> exists ts o, parse_input strtod c input = Ok (ts, o) /\ o <> PNoTree).
Proof.
  intros H. destruct (H strtod the_arith_ctx (str "((1,2))") arith_set_up) as (ts & o & E & _).
  assert (K : parse_input strtod the_arith_ctx (str "((1,2))") = Ub) by (vm_compute; reflexivity).
  rewrite K in E. discriminate E.
Qed.
(** True of all inputs without such a delimiter: parsing yields a tree or an error code. *)
Theorem C16_parse_total_partial : forall strtod c input, set_up c ->
  exists ts, tokenize_with (c_kw c) input = Ok ts
  /\ (safe_delimiters [] false (unblanked ts) ->
      (exists t, parse_input strtod c input = Ok (ts, PTree t)) \/ (exists e k, parse_input strtod c input = Ok (ts, PErr e k))).
Proof.
  intros sd c input S. destruct (parse_input_tokens sd c S input) as (ts & E & _ & P). exists ts. split; auto. intros Sf.
  rewrite P. destruct (parse_balance sd (view c) (set_up_usual c S) ts) as [(t & Et & _)|[(e & k & Ee)|(_ & X)]]; [| |contradiction].
  - left. rewrite Et. cbn [rbind]. eauto.
  - right. rewrite Ee. cbn [rbind]. eauto.
Qed.
Example C16_case : let ts := map str ["sum"; "("; "1"; ","; "("; "2"; "+"; "x"; ")"; ")"; "!"] in
  tokenize_with (c_kw the_arith_ctx) (str "sum(1,(2+x))!") = Ok ts /\ safe_delimiters [] false (unblanked ts).
Proof. split; [vm_compute; reflexivity|]. vm_compute. auto. Qed.
(** Undefined behaviour is the only other outcome, and only for a forbidden delimiter. *)
Theorem C16_parse_crash_cause : forall strtod c input, set_up c -> forall ts, tokenize_with (c_kw c) input = Ok ts ->
  (forall ts' o, parse_input strtod c input = Ok (ts', o) -> ts' = ts /\ o <> PNoTree)
  /\ (parse_input strtod c input = Ub -> ~ safe_delimiters [] false (unblanked ts)) /\ parse_input strtod c input <> Halt.
Proof.
  intros sd c input S ts E. destruct (parse_input_tokens sd c S input) as (ts0 & E0 & _ & P). rewrite E in E0. inversion E0; subst ts0.
  rewrite P. destruct (parse_balance sd (view c) (set_up_usual c S) ts) as [(t & Et & _)|[(e & k & Ee)|(Eu & X)]].
  - rewrite Et. cbn [rbind]. split; [|split; congruence]. intros ts' o H. inversion H; subst. split; congruence.
  - rewrite Ee. cbn [rbind]. split; [|split; congruence]. intros ts' o H. inversion H; subst. split; congruence.
  - rewrite Eu. cbn [rbind]. split; [discriminate|]. split; [auto|congruence].
Qed.
Print Assumptions C16_parse_total_refuted.
Print Assumptions C16_parse_total_partial.
Print Assumptions C16_parse_crash_cause.

(** ** C17: for every context, however it was built *)
Theorem C17_arities_respected : forall strtod c input ts t,
  parse_input strtod c input = Ok (ts, PTree t) -> arities_ok t.
Proof.
  intros sd c input ts t E. unfold parse_input in E.
  destruct (tokenize _ input) as [ts0| |]; cbn [rbind] in E; try discriminate.
  destruct (parse_tokens sd (view c) ts0) as [o| |] eqn:Ep; cbn [rbind] in E; inversion E; subst.
  eapply parse_arities; eauto.
Qed.
Example C17_case : match parse_input strtod the_arith_ctx (str "2sum(1,-x,ln(3)!) mod sum()") with
  | Ok (_, PTree t) => arities_ok t | _ => False end.
Proof. vm_compute. intuition. Qed.
Print Assumptions C17_arities_respected.

(** ** C18 *)
Theorem C18_tokens_used_once : forall strtod c input ts t, set_up c ->
  parse_input strtod c input = Ok (ts, PTree t) ->
  leaves t = operands (roles strtod (view c) false (unblanked ts))
  /\ Permutation (tree_ops t) (operators (roles strtod (view c) false (unblanked ts))).
Proof.
  intros sd c input ts t S E. destruct (parse_input_tokens sd c S input) as (ts0 & E0 & _ & P). rewrite P in E.
  destruct (parse_balance sd (view c) (set_up_usual c S) ts0) as [(t' & Et & H)|[(e & k & Ee)|(Eu & X)]].
  - rewrite Et in E. cbn [rbind] in E. inversion E; subst. exact H.
  - rewrite Ee in E. discriminate.
  - rewrite Eu in E. discriminate.
Qed.
Example C18_case : match parse_input strtod the_arith_ctx (str "2x+sum(a, -b)") with
  | Ok (_, PTree t) =>
      map (fun n => match n with NVar x _ i => (x, i) | NConst _ i => (str "2", i) | _ => ([], 0) end) (leaves t)
        = [(str "2", 0); (str "x", 1); (str "a", 5); (str "b", 9)]
      /\ map (fun x => (o_name (fst x), snd x)) (tree_ops t) = [(str "+", 2); (str "*", 1); (str "sum", 3); (str "-", 8)]
  | _ => False end.
Proof. vm_compute. auto. Qed.
Print Assumptions C18_tokens_used_once.

(** ** C19 *)
(** The tree of the reading in which every operand goes where precedence and associativity send it ... *)
Theorem C19_correct_tree : forall strtod c input ts s, set_up c ->
  tokenize_with (c_kw c) input = Ok ts -> flatten s = unblanked ts -> wfs strtod (view c) s -> correct s ->
  parse_input strtod c input = Ok (ts, PTree (erase s)).
Proof.
  intros sd c input ts s S E F W C. destruct (parse_input_tokens sd c S input) as (ts0 & E0 & _ & P).
  rewrite E in E0. inversion E0; subst ts0. rewrite P, parse_unblanked, <- F.
  rewrite (parse_correct sd (view c) (set_up_usual c S) s (List.length ts) W C). reflexivity.
Qed.
(** ... and every expression of the grammar has such a reading, so it is accepted. *)
Theorem C19_all_expressions_accepted : forall strtod c input ts s, set_up c ->
  tokenize_with (c_kw c) input = Ok ts -> flatten s = unblanked ts -> wfs strtod (view c) s ->
  exists s', wfs strtod (view c) s' /\ correct s' /\ flatten s' = flatten s
    /\ parse_input strtod c input = Ok (ts, PTree (erase s'))
    /\ (forall s'', wfs strtod (view c) s'' -> correct s'' -> flatten s'' = flatten s -> erase s'' = erase s').
Proof.
  intros sd c input ts s S E F W. destruct (parse_input_tokens sd c S input) as (ts0 & E0 & _ & P).
  rewrite E in E0. inversion E0; subst ts0.
  destruct (parse_accept sd (view c) (set_up_usual c S) s (List.length ts) W) as (s' & W' & C' & F' & A).
  exists s'. split; auto. split; auto. split; auto. split.
  - rewrite P, parse_unblanked, <- F, A. reflexivity.
  - intros s2 W2 C2 F2. pose proof (parse_correct sd (view c) (set_up_usual c S) s2 (List.length ts) W2 C2) as A2.
    rewrite F2, A in A2. inversion A2. auto.
Qed.
(** a + b * c - d, read with the wrong brackets a + (b * (c - d)): in the grammar; its correct reading is
    (a + b * c) - d. *)
Definition ar (p : placement) (n : string) : operator :=
  match pc_lookup (view the_arith_ctx) p (str n) with Some o => o | None => star end.
Definition C19_wrong : sterm :=
  SInf (ar PInfix "+") (SVar (0, str "a")) (1, str "+")
    (SInf (ar PInfix "*") (SVar (2, str "b")) (3, str "*")
      (SInf (ar PInfix "-") (SVar (4, str "c")) (5, str "-") (SVar (6, str "d")))).
Definition C19_right : sterm :=
  SInf (ar PInfix "-") (SInf (ar PInfix "+") (SVar (0, str "a")) (1, str "+")
    (SInf (ar PInfix "*") (SVar (2, str "b")) (3, str "*") (SVar (4, str "c")))) (5, str "-") (SVar (6, str "d")).
Lemma plainb : forall t, (blank t || is_opening_parenthesis (snd t) || is_closing_parenthesis (snd t) || is_delimiter (snd t)) = false -> plain t.
Proof.
  intros t H. rewrite !orb_false_iff in H. destruct H as (((A & B) & C) & D).
  unfold plain, opening, closing, delimiter. rewrite A, B, C, D. repeat split; congruence.
Qed.
Example C19_case :
  wfs strtod (view the_arith_ctx) C19_wrong /\ flatten C19_wrong = flatten C19_right
  /\ wfs strtod (view the_arith_ctx) C19_right /\ correct C19_right
  /\ tokenize_with (c_kw the_arith_ctx) (str "a+b*c-d") = Ok (map snd (flatten C19_wrong))
  /\ flatten C19_wrong = unblanked (map snd (flatten C19_wrong)).
Proof.
  assert (V : forall i x, In x ["a"; "b"; "c"; "d"] -> wfs strtod (view the_arith_ctx) (SVar (i, str x))).
  { intros i x H. simpl in H. repeat (destruct H as [<-|H]; [split; [apply plainb; reflexivity|]; split; [intros []; vm_compute; reflexivity|]; split; vm_compute; reflexivity|]). contradiction. }
  assert (O : forall i x, In x ["+"; "*"; "-"] -> plain (i, str x) /\ named (view the_arith_ctx) PInfix (i, str x) (ar PInfix x)).
  { intros i x H. simpl in H. repeat (destruct H as [<-|H]; [split; [apply plainb; reflexivity|vm_compute; reflexivity]|]). contradiction. }
  assert (J : forall l i x r, In x ["+"; "*"; "-"] -> wfs strtod (view the_arith_ctx) l -> wfs strtod (view the_arith_ctx) r ->
    wfs strtod (view the_arith_ctx) (SInf (ar PInfix x) l (i, str x) r)).
  { intros l i x r H Hl Hr. destruct (O i x H). split; [exact Hl|]. split; [assumption|]. split; assumption. }
  split; [|split; [reflexivity|split; [|split; [|split; vm_compute; reflexivity]]]].
  - unfold C19_wrong. repeat (apply J; [simpl; tauto| |]); apply V; simpl; tauto.
  - unfold C19_right. repeat first [apply J; [simpl; tauto| |] | apply V; simpl; tauto].
  - unfold C19_right. cbn [correct left_edge right_edge In]. unfold goes_left.
    assert (Q1 : o_prec (ar PInfix "+") = 2) by (vm_compute; reflexivity).
    assert (Q2 : o_prec (ar PInfix "-") = 2) by (vm_compute; reflexivity).
    assert (Q3 : o_prec (ar PInfix "*") = 4) by (vm_compute; reflexivity).
    assert (Q4 : o_assoc (ar PInfix "-") = ALeft) by (vm_compute; reflexivity).
    revert Q1 Q2 Q3 Q4. generalize (ar PInfix "+") (ar PInfix "-") (ar PInfix "*"). clear.
    intros a b c Q1 Q2 Q3 Q4. repeat split; try tauto; intros o Ho; repeat destruct Ho as [<-|Ho]; try tauto; rewrite ?Q1, ?Q2, ?Q3; lia || auto.
Qed.
Print Assumptions C19_correct_tree.
Print Assumptions C19_all_expressions_accepted.

(** ** C20 *)
(** False: an operator without its operand before a closing parenthesis takes one from further left. *)
Lemma dangling_not_grammatical : forall strtod pc s p, wfs strtod pc s -> no_dangling strtod pc false p (flatten s).
Proof. intros sd pc s p W. rewrite <- (app_nil_r (flatten s)). apply (proj1 (wf_no_dangling sd pc) s W). exact I. Qed.
Theorem C20_only_expressions_refuted :
  ~ (forall strtod c input ts t, set_up c -> parse_input strtod c input = Ok (ts, PTree t) ->
     exists s, wfs strtod (view c) s /\ flatten s = unblanked ts).
Proof.
  intros H.
  assert (K : match parse_input strtod the_arith_ctx (str "1+sum(+)") with
              | Ok (ts, PTree _) => ~ no_dangling strtod (view the_arith_ctx) false false (unblanked ts) | _ => False end).
  { assert (K' : match parse_input strtod the_arith_ctx (str "1+sum(+)") with
              | Ok (ts, PTree _) => no_dangling strtod (view the_arith_ctx) false false (unblanked ts) -> False | _ => False end); [|exact K'].
    vm_compute. intros [[A|A] _]; discriminate. }
  destruct (parse_input strtod the_arith_ctx (str "1+sum(+)")) as [[ts [t|e k|]]| |] eqn:E; try contradiction.
  destruct (H _ _ _ _ _ arith_set_up E) as (s & W & F). apply K. rewrite <- F. apply dangling_not_grammatical. exact W.
Qed.
(** True of all inputs without such an operator; expressions have none. *)
Theorem C20_only_expressions_partial : forall strtod c input ts t, set_up c ->
  parse_input strtod c input = Ok (ts, PTree t) -> no_dangling strtod (view c) false false (unblanked ts) ->
  exists s, wfs strtod (view c) s /\ correct s /\ flatten s = unblanked ts /\ t = erase s.
Proof.
  intros sd c input ts t S E N. destruct (parse_input_tokens sd c S input) as (ts0 & E0 & _ & P). rewrite P in E.
  destruct (parse_tokens sd (view c) ts0) as [o| |] eqn:Ep; cbn [rbind] in E; inversion E; subst.
  rewrite parse_unblanked in Ep.
  destruct (parse_sound sd (view c) (set_up_usual c S) (unblanked ts) (List.length ts) t) as (s & A & B & C & D); auto.
  { apply unblanked_nonblank. }
  exists s. auto.
Qed.
Theorem C20_accepted_iff : forall strtod c input ts, set_up c -> tokenize_with (c_kw c) input = Ok ts ->
  ((exists t, parse_input strtod c input = Ok (ts, PTree t)) /\ no_dangling strtod (view c) false false (unblanked ts)
   <-> exists s, wfs strtod (view c) s /\ flatten s = unblanked ts).
Proof.
  intros sd c input ts S E. split.
  - intros [(t & A) N]. destruct (C20_only_expressions_partial sd c input ts t S A N) as (s & W & _ & F & _). eauto.
  - intros (s & W & F). destruct (C19_all_expressions_accepted sd c input ts s S E F W) as (s' & _ & _ & _ & A & _).
    split; [eauto|]. rewrite <- F. apply dangling_not_grammatical. exact W.
Qed.
Example C20_case : match parse_input strtod the_arith_ctx (str "-2x^2!+sum(sum(),3%)(y)") with
  | Ok (ts, PTree t) => no_dangling strtod (view the_arith_ctx) false false (unblanked ts) | _ => False end.
Proof. vm_compute. intuition. Qed.
Print Assumptions C20_only_expressions_refuted.
Print Assumptions C20_only_expressions_partial.
Print Assumptions C20_accepted_iff.

(** ** C21 *)
Definition same_answer (a b : res (list cstr * pout)) : Prop :=
  match a, b with Ok (_, o), Ok (_, o') => same_outcome o o' | Ub, Ub => True | _, _ => False end.
Lemma answers : forall sd c ts ts', no_bracket_names c -> Forall2 alike (unblanked ts) (unblanked ts') ->
  same_answer (o <- parse_tokens sd (view c) ts ;; Ok (ts, o)) (o <- parse_tokens sd (view c) ts' ;; Ok (ts', o))
  \/ parse_tokens sd (view c) ts = Halt.
Proof.
  intros sd c ts ts' NB F. pose proof (parse_shape sd (view c) (names_no_paren c NB) ts ts' F) as L. unfold lift in L.
  destruct (parse_tokens sd (view c) ts), (parse_tokens sd (view c) ts'); simpl; auto; contradiction.
Qed.
(** A blank between two tokens does not matter, ... *)
Theorem C21_blanks : forall strtod c input a b, set_up c -> no_bracket_names c ->
  tokenize_with (c_kw c) input = Ok (a ++ b) ->
  same_answer (parse_input strtod c input) (parse_input strtod c (List.concat a ++ " "%char :: List.concat b)).
Proof.
  intros sd c input a b S NB E.
  destruct (parse_input_tokens sd c S input) as (ts & E1 & _ & P1). rewrite E in E1. inversion E1; subst ts.
  destruct (parse_input_tokens sd c S (List.concat a ++ " "%char :: List.concat b)) as (ts' & E2 & _ & P2).
  pose proof (tokens_blank c S input a b E) as E3. unfold sp in E3. rewrite E2 in E3. inversion E3; subst ts'.
  rewrite P1, P2. destruct (answers sd c (a ++ b) (a ++ [sp] :: b) NB (alike_insert a b)) as [A|A]; [exact A|].
  exfalso. destruct (C16_parse_crash_cause sd c input S _ E) as (_ & _ & H). apply H. rewrite P1, A. reflexivity.
Qed.
(** ... nor does the shape of brackets. *)
Theorem C21_bracket_shape : forall strtod c input input', set_up c -> no_bracket_names c ->
  Forall2 alike_char input input' -> same_answer (parse_input strtod c input) (parse_input strtod c input').
Proof.
  intros sd c input input' S NB F.
  destruct (parse_input_tokens sd c S input) as (ts & E1 & _ & P1).
  destruct (tokens_brackets c S NB input input' ts E1 F) as (ts' & E2 & F').
  destruct (parse_input_tokens sd c S input') as (ts2 & E3 & _ & P2). rewrite E2 in E3. inversion E3; subst ts2.
  rewrite P1, P2. destruct (answers sd c ts ts' NB (alike_unblanked _ _ (alike_indexed _ _ 0 F'))) as [A|A]; [exact A|].
  exfalso. destruct (C16_parse_crash_cause sd c input S _ E1) as (_ & _ & H). apply H. rewrite P1, A. reflexivity.
Qed.
Lemma arith_no_brackets : no_bracket_names the_arith_ctx.
Proof.
  intros n p o E. destruct arith_ctx_ok as (_ & C & _). rewrite (lookup_crep _ _ n p C) in E.
  assert (E' : reg_find arith_registry n p = Some o) by congruence. clear E.
  apply reg_find_In in E'. destruct E' as (Hi & <- & _).
  assert (B : forallb (fun o => forallb (fun ch => negb (existsb (Nat.eqb (nat_of_ascii ch)) [40; 41; 123; 125])) (o_name o)) arith_registry = true)
    by (vm_compute; reflexivity).
  rewrite forallb_forall in B. apply B in Hi. rewrite forallb_forall in Hi. apply Forall_forall. intros ch Hc. apply Hi in Hc.
  apply negb_true_iff in Hc. unfold opens, closes.
  split; intros X; rewrite <- not_true_iff_false in Hc; apply Hc; apply existsb_exists; exists (nat_of_ascii ch); (split; [|apply Nat.eqb_refl]); simpl; destruct X as [->| ->]; auto.
Qed.
Example C21_case :
  set_up the_arith_ctx /\ no_bracket_names the_arith_ctx
  /\ tokenize_with (c_kw the_arith_ctx) (str "2sin(x)+1") = Ok (map str ["2"; "sin"; "("] ++ map str ["x"; ")"; "+"; "1"])
  /\ Forall2 alike_char (str "2sin(x)+1") (str "2sin{x)+1")
  /\ match parse_input strtod the_arith_ctx (str "2sin(x)+1") with Ok (_, PTree _) => True | _ => False end.
Proof.
  split; [exact arith_set_up|]. split; [exact arith_no_brackets|]. split; [vm_compute; reflexivity|].
  split; [|vm_compute; exact I]. unfold alike_char. repeat (constructor; [first [left; reflexivity | right; left; split; unfold opens; cbn; auto]|]). constructor.
Qed.
Print Assumptions C21_blanks.
Print Assumptions C21_bracket_shape.

(** ** C24 *)
Theorem C24_error_position : forall strtod c input ts e k, set_up c ->
  parse_input strtod c input = Ok (ts, PErr e k) ->
  k <= List.length ts /\ List.concat ts = input /\ List.length (List.concat (firstn k ts)) <= List.length input.
Proof.
  intros sd c input ts e k S E. destruct (parse_input_tokens sd c S input) as (ts0 & E0 & K & P). rewrite P in E.
  destruct (parse_tokens sd (view c) ts0) as [o| |] eqn:Ep; cbn [rbind] in E; inversion E; subst.
  split; [eapply parse_position; eauto|]. split; auto.
  rewrite <- (firstn_skipn k ts) at 2. rewrite concat_app, app_length. lia.
Qed.
Example C24_case : match parse_input strtod the_arith_ctx (str "3+sin(1,2)") with
  | Ok (_, PErr e k) => e = PERR_FUNCTION_WRONG_ARITY /\ k = 2 | _ => False end.
Proof. vm_compute. auto. Qed.
Print Assumptions C24_error_position.
