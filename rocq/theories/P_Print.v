(** Printing a tree and reading the text again (C22, C23). *)
From Coq Require Import List Ascii String NArith ZArith Bool Lia Arith Permutation.
From Coq.Floats Require Import SpecFloat.
From Verif Require Import M_Base M_StringUtil M_LinkedList M_Trie M_Tree M_Context M_Tokenizer M_Parser M_Printer M_TreeUtil M_ArithCtx M_Double M_Eval M_Simplify M_Session M_Strtod
  S_Util S_Engine S_Parse S_Tree S_Session S_Print L_StringUtil L_LinkedList L_Trie L_Tokenizer L_Context P_Context L_ArithCtx L_SetUp L_Lex L_Parser L_ParserBlank P_Parse
  L_SessionCtx L_Session L_Reach L_SessionEx P_Session L_Print L_PrintLex L_PrintParse.
Import ListNotations.
Open Scope string_scope.
Open Scope list_scope.
Open Scope nat_scope.
Open Scope res_scope.

(** ** C22: the pieces printed, taken as tokens *)
Theorem C22_printed_tokens : forall strtod fmt c, set_up c -> printable_ctx c ->
  forall t, printable_tree strtod fmt c t ->
  exists ps t', tree_pieces fmt false t = Ok ps /\ parse_tokens strtod (view c) ps = Ok (PTree t') /\ bare_tree t' = bare_tree t.
Proof. exact pieces_parse. Qed.

(** ** C23: the printed text *)
Theorem C23_text_parses_back : forall strtod fmt c, set_up c -> printable_ctx c -> readable_ctx c ->
  forall t, printable_tree strtod fmt c t -> plain_leaves fmt t ->
  exists text ts t', tree_to_str fmt false t = Ok text /\ parse_input strtod c text = Ok (ts, PTree t') /\ bare_tree t' = bare_tree t.
Proof.
  intros strtod fmt c S P R t Pt Lt. destruct (text_tokens _ _ _ _ S P R Pt Lt) as (ps & E & K). destruct (C22_printed_tokens _ _ _ S P t Pt) as (ps' & t' & E' & T & B).
  rewrite E in E'. injection E' as <-. exists (List.concat ps), ps, t'. split; [unfold tree_to_str; rewrite E; reflexivity|]. split; auto.
  unfold parse_input. unfold tokenize_with in K. rewrite K. cbn [rbind]. rewrite T. reflexivity.
Qed.
(** What the parser made of a text, printed, is read as the same tree. *)
Theorem C23_reparsed : forall strtod fmt c, set_up c -> printable_ctx c -> readable_ctx c ->
  forall input ts t, parse_input strtod c input = Ok (ts, PTree t) -> Forall (reads_back strtod fmt) (constants t) ->
  exists text ts' t', tree_to_str fmt false t = Ok text /\ parse_input strtod c text = Ok (ts', PTree t') /\ bare_tree t' = bare_tree t.
Proof.
  intros strtod fmt c S P R input ts t E C. destruct (parsed_printable _ fmt _ S _ _ _ E C). apply C23_text_parses_back; auto.
Qed.
(** Trees with the same shape print alike. *)
Lemma pieces_bare : forall fmt color n l r, to_str fmt color (bare_tree n) l r = to_str fmt color n l r.
Proof.
  intros fmt color. induction n as [v k|x i k|op cs k IH] using node_ind'; intros l r; try reflexivity. cbn [bare_tree].
  assert (W : forall f n, child_wrapped f (bare_tree n) = child_wrapped f n) by (intros f [| |]; reflexivity).
  cbn [to_str]. destruct (o_place op).
  - destruct cs as [|a cs]; [reflexivity|]. inversion IH; subst. cbn [map]. rewrite W, !H1. reflexivity.
  - destruct cs as [|a [|b cs]]; try reflexivity. inversion IH as [|? ? Ha IH']; subst. inversion IH' as [|? ? Hb _]; subst. cbn [map]. rewrite !W, !Ha, !Hb. reflexivity.
  - destruct cs as [|a cs]; [reflexivity|]. inversion IH; subst. cbn [map]. rewrite W, !H1. reflexivity.
  - destruct (arity_zero (o_arity op)); [reflexivity|].
    match goal with |- rbind (?f (map bare_tree cs)) _ = rbind (?g cs) _ => assert (E : f (map bare_tree cs) = g cs) end.
    { induction cs as [|a cs IHc]; [reflexivity|]. inversion IH as [|? ? Ha IH']; subst. cbn [map]. rewrite Ha. specialize (IHc IH'). destruct cs as [|b cs]; [reflexivity|].
      cbn [map] in *. rewrite IHc. reflexivity. }
    rewrite E. reflexivity.
Qed.
Theorem C23_same_text : forall fmt color t t', bare_tree t = bare_tree t' -> tree_to_str fmt color t = tree_to_str fmt color t'.
Proof. intros fmt color t t' E. unfold tree_to_str, tree_pieces. rewrite <- pieces_bare, E, pieces_bare. reflexivity. Qed.

(** ** The contexts of the calculator *)
Definition word_b (n : cstr) : bool := match n with [] => false | _ => forallb is_letter n end.
Definition symbol_char_b (ch : ascii) : bool :=
  negb (is_letter ch) && negb (is_digit ch) && negb (existsb (ceqb ch) ["("; "{"; ")"; "}"; ","; " "]%char).
Definition symbol_b (n : cstr) : bool := match n with [] => false | _ => forallb symbol_char_b n end.
Lemma ceqb_ok : forall a b, ceqb a b = true <-> a = b.
Proof. intros a b. rewrite ceqb_nat, Nat.eqb_eq. split; [|congruence]. intros H. rewrite <- (ascii_nat_embedding a), <- (ascii_nat_embedding b), H. reflexivity. Qed.
Lemma word_ok : forall n, word_b n = true -> word n.
Proof.
  intros [|ch n] H; [discriminate H|]. split; [discriminate|]. apply Forall_forall. intros x I. unfold word_b in H. rewrite forallb_forall in H. apply is_letter_spec. auto.
Qed.
Lemma symbol_char_ok : forall ch, symbol_char_b ch = true -> symbol_char ch.
Proof.
  intros ch H. unfold symbol_char_b in H. rewrite !andb_true_iff, !negb_true_iff in H. destruct H as [[A B] C].
  assert (N : forall x, In x ["("; "{"; ")"; "}"; ","; " "]%char -> ch <> x).
  { intros x I ->. assert (X : existsb (ceqb x) ["("; "{"; ")"; "}"; ","; " "]%char = true) by (apply existsb_exists; exists x; split; [auto|apply ceqb_ok; auto]). congruence. }
  assert (M : forall k x, nat_of_ascii x = k -> In x ["("; "{"; ")"; "}"; ","; " "]%char -> nat_of_ascii ch <> k).
  { intros k x <- I E. apply (N x I). rewrite <- (ascii_nat_embedding ch), E. apply ascii_nat_embedding. }
  unfold symbol_char. split. { rewrite <- is_letter_spec. congruence. } split. { rewrite <- is_digit_spec. congruence. }
  unfold opens, closes. split. { intros [E|E]; revert E; [apply (M 40 "("%char)|apply (M 123 "{"%char)]; simpl; auto. }
  split. { intros [E|E]; revert E; [apply (M 41 ")"%char)|apply (M 125 "}"%char)]; simpl; auto 10. }
  split; apply N; simpl; auto 10.
Qed.
Lemma symbol_ok : forall n, symbol_b n = true -> symbol n.
Proof.
  intros [|ch n] H; [discriminate H|]. split; [discriminate|]. apply Forall_forall. intros x I. unfold symbol_b in H. rewrite forallb_forall in H. apply symbol_char_ok. auto.
Qed.
Definition single_token (c : ctx) (n : cstr) : bool := match tokenize_with (c_kw c) n with Ok [x] => streqb x n | _ => false end.
Lemma single_ok : forall c n, single_token c n = true -> tokenize_with (c_kw c) n = Ok [n].
Proof. intros c n. unfold single_token. destruct (tokenize_with (c_kw c) n) as [[|x [|]]| |]; intro H; try discriminate H. destruct (streqb_spec x n); [subst; auto|discriminate H]. Qed.
Definition is_none (o : option operator) : bool := match o with None => true | Some _ => false end.
(** Each operator on its own *)
Definition op_fits (c : ctx) (r : registry) (o : operator) : bool :=
  ((word_b (o_name o) && (placement_eqb (o_place o) PFunction || placement_eqb (o_place o) PInfix))
   || (symbol_b (o_name o) && negb (placement_eqb (o_place o) PFunction) && single_token c (o_name o)))
  && (negb (placement_eqb (o_place o) PPrefix) || (negb (existsb (ceqb "%"%char) (o_name o)) && is_none (reg_find r (o_name o) PFunction)))
  && (negb (placement_eqb (o_place o) PPostfix) || is_none (reg_find r (o_name o) PInfix)).
Definition pair_fits (a b : operator) : bool :=
  negb (placement_eqb (o_place a) PInfix && placement_eqb (o_place b) PPostfix && assoc_eqb (o_assoc a) ARight && (o_prec a =? o_prec b)).
Definition reg_fits (c : ctx) (r : registry) : bool := forallb (op_fits c r) r && forallb (fun a => forallb (pair_fits a) r) r.
Definition user_like (o : operator) : Prop := word (o_name o) /\ o_place o = PFunction.

Lemma word_no_symbol : forall n, word n -> symbol n -> False.
Proof. intros n [N F] [_ G]. destruct n as [|ch n]; [congruence|]. inversion F; inversion G; subst. eapply letter_not_symbol; eauto. Qed.
Section Fits.
Variables (c c0 : ctx) (b us : registry).
Hypothesis SU : set_up c.
Hypothesis CR : crep c (b ++ us).
Hypothesis ST : same_tokens c c0.
Hypothesis OK : reg_fits c0 b = true.
Hypothesis US : Forall user_like us.
Lemma in_reg : forall o, registered c o -> In o (b ++ us).
Proof. intros o H. unfold registered in H. rewrite (lookup_crep _ _ _ _ CR) in H. injection H as H. apply reg_find_In in H. tauto. Qed.
Lemma op_cases : forall o, registered c o -> user_like o \/ (In o b /\ op_fits c0 b o = true).
Proof.
  intros o H. apply in_reg in H. apply in_app_or in H. destruct H as [H|H]; [right|left; rewrite Forall_forall in US; auto].
  unfold reg_fits in OK. apply andb_true_iff in OK. destruct OK as [A _]. rewrite forallb_forall in A. auto.
Qed.
Lemma place_ok : forall p q, placement_eqb p q = true <-> p = q.
Proof. intros [] []; cbn; intuition congruence. Qed.
Lemma op_shape : forall o, registered c o -> (word (o_name o) /\ (o_place o = PFunction \/ o_place o = PInfix))
    \/ (symbol (o_name o) /\ o_place o <> PFunction /\ tokenize_with (c_kw c) (o_name o) = Ok [o_name o]).
Proof.
  intros o H. destruct (op_cases o H) as [[W P]|[I F]]; auto. unfold op_fits in F. rewrite !andb_true_iff in F. destruct F as [[F _] _].
  rewrite !orb_true_iff, !andb_true_iff, orb_true_iff, negb_true_iff, !place_ok in F. destruct F as [[W F]|[[S N] T]].
  - left. split; auto. apply word_ok. auto.
  - right. split; [apply symbol_ok; auto|]. split. { intro E. apply place_ok in E. congruence. } rewrite (ST (o_name o)). apply single_ok. auto.
Qed.
Lemma fits_readable : readable_ctx c.
Proof. intros o H. apply op_shape. auto. Qed.
Lemma none_ok : forall n p, is_none (reg_find b n p) = true -> (p = PFunction -> symbol n) -> (forall o, reg_find us n p = Some o -> p = PFunction) -> unused c n p.
Proof.
  intros n p H S U. unfold unused. rewrite (lookup_crep _ _ _ _ CR). f_equal. rewrite reg_find_app. destruct (reg_find b n p); [discriminate H|].
  destruct (reg_find us n p) as [o|] eqn:E; auto. exfalso. pose proof (U o eq_refl) as ->. apply reg_find_In in E. destruct E as (I & <- & _).
  rewrite Forall_forall in US. destruct (US o I) as [W _]. eapply word_no_symbol; eauto.
Qed.
Lemma user_place : forall n p o, reg_find us n p = Some o -> p = PFunction.
Proof. intros n p o E. apply reg_find_In in E. destruct E as (I & _ & <-). rewrite Forall_forall in US. apply (US o I). Qed.
Lemma fits_printable : printable_ctx c.
Proof.
  assert (LR : forall n p o, ctx_lookup_op c n p = Ok (Some o) -> registered c o /\ o_name o = n /\ o_place o = p) by (apply lookup_registered; auto).
  split; [|split; [|split; [|split]]].
  - intros n p o H. destruct (LR _ _ _ H) as (R & <- & _). destruct (op_shape o R) as [[[_ W] _]|[[_ S] _]].
    + eapply Forall_impl; [|exact W]. intros ch. unfold letter_char, opens, closes, in_range. cbn beta. lia.
    + eapply Forall_impl; [|exact S]. intros ch Hs. unfold symbol_char in Hs. tauto.
  - intros o R E. destruct (op_shape o R) as [[[_ W] _]|[[_ S] _]]; rewrite E in *.
    + inversion W as [|? ? X _]. unfold letter_char, in_range in X. cbn in X. lia.
    + inversion S as [|? ? X _]. unfold symbol_char in X. tauto.
  - intros n o H. destruct (LR _ _ _ H) as (R & <- & P). destruct (op_cases o R) as [[_ P']|[I F]]; [congruence|].
    pose proof (op_shape o R) as Sh. unfold op_fits in F. rewrite !andb_true_iff in F. destruct F as [[_ F] _]. rewrite P in F. cbn [placement_eqb negb orb] in F.
    apply andb_true_iff in F. destruct F as [F1 F2]. destruct Sh as [[_ [Q|Q]]|[Sy _]]; try congruence. split.
    + apply none_ok; auto.
    + intro J. apply negb_true_iff in F1. assert (X : existsb (ceqb "%"%char) (o_name o) = true) by (apply existsb_exists; exists "%"%char; split; auto). congruence.
  - intros n o H. destruct (LR _ _ _ H) as (R & <- & P). destruct (op_cases o R) as [[_ P']|[I F]]; [congruence|].
    unfold op_fits in F. rewrite !andb_true_iff in F. destruct F as [_ F]. rewrite P in F. cbn [placement_eqb negb orb] in F.
    apply none_ok; auto; [discriminate|]. apply user_place.
  - intros x y Rx Ry Px Py A E. destruct (op_cases x Rx) as [[_ P']|[Ix _]]; [congruence|]. destruct (op_cases y Ry) as [[_ P']|[Iy _]]; [congruence|].
    unfold reg_fits in OK. apply andb_true_iff in OK. destruct OK as [_ B]. rewrite forallb_forall in B. specialize (B x Ix). rewrite forallb_forall in B. specialize (B y Iy).
    unfold pair_fits in B. rewrite Px, Py, A, E, Nat.eqb_refl in B. discriminate B.
Qed.
End Fits.

Lemma arith_fits : reg_fits the_arith_ctx arith_registry = true.
Proof. vm_compute. reflexivity. Qed.
Lemma session_ctx : forall L fuel strtod files s defs, session_of L fuel strtod files any_function s defs ->
  set_up (ss_ctx s) /\ printable_ctx (ss_ctx s) /\ readable_ctx (ss_ctx s).
Proof.
  intros L fuel sd files s defs R. pose proof (reach_inv _ _ _ _ _ _ _ R) as V. pose proof (i_funs _ _ V) as F. destruct (i_ctx _ _ V) as (C & S & _ & T).
  assert (U : Forall user_like (map f_op defs)).
  { apply Forall_forall. intros o I. apply in_map_iff in I. destruct I as (f & <- & If). rewrite Forall_forall in F. destruct (F f If) as (P & _ & W & N & _). split; auto. split; auto. }
  split; auto. split; [eapply fits_printable|eapply fits_readable]; eauto using arith_fits.
Qed.
Lemma arith_ctx_fits : set_up the_arith_ctx /\ printable_ctx the_arith_ctx /\ readable_ctx the_arith_ctx.
Proof.
  assert (C : crep the_arith_ctx (arith_registry ++ [])) by (rewrite app_nil_r; apply arith_ctx_ok).
  pose proof arith_set_up. split; auto. split; [eapply fits_printable|eapply fits_readable]; eauto using arith_fits; intros i; reflexivity.
Qed.
(** Trees over the operators of the calculator *)
Theorem C23_arith : forall strtod fmt t, printable_tree strtod fmt the_arith_ctx t -> plain_leaves fmt t ->
  exists text ts t', tree_to_str fmt false t = Ok text /\ parse_input strtod the_arith_ctx text = Ok (ts, PTree t') /\ bare_tree t' = bare_tree t.
Proof. intros strtod fmt t. destruct arith_ctx_fits as (S & P & R). apply C23_text_parses_back; auto. Qed.
(** In every session, with the functions defined there *)
Theorem C23_session : forall L fuel strtod files s defs, session_of L fuel strtod files any_function s defs ->
  forall fmt t, printable_tree strtod fmt (ss_ctx s) t -> plain_leaves fmt t ->
  exists text ts t', tree_to_str fmt false t = Ok text /\ parse_input strtod (ss_ctx s) text = Ok (ts, PTree t') /\ bare_tree t' = bare_tree t.
Proof. intros L fuel sd files s defs R fmt t. destruct (session_ctx _ _ _ _ _ _ R) as (S & P & Rd). apply C23_text_parses_back; auto. Qed.
Theorem C23_session_reparsed : forall L fuel strtod files s defs, session_of L fuel strtod files any_function s defs ->
  forall fmt input ts t, parse_input strtod (ss_ctx s) input = Ok (ts, PTree t) -> Forall (reads_back strtod fmt) (constants t) ->
  exists text ts' t', tree_to_str fmt false t = Ok text /\ parse_input strtod (ss_ctx s) text = Ok (ts', PTree t') /\ bare_tree t' = bare_tree t
    /\ tree_to_str fmt false t' = Ok text.
Proof.
  intros L fuel sd files s defs R fmt input ts t E C. destruct (session_ctx _ _ _ _ _ _ R) as (S & P & Rd).
  destruct (C23_reparsed _ fmt _ S P Rd _ _ _ E C) as (text & ts' & t' & A & B & D). exists text, ts', t'. split; auto. split; auto. split; auto.
  rewrite (C23_same_text _ _ _ _ D). auto.
Qed.

(** ** Which contexts are needed *)
(** A context with these operators *)
Definition small (ops : list operator) : res ctx :=
  '(c, ok) <- ctx_add_ops ctx_create ops ;;
  if ok : bool then
    o <- ctx_lookup_op c (str "no") PInfix ;;
    '(c', _) <- ctx_set_glue_op c (option_map o_addr o) ;;
    Ok c'
  else Halt.
Definition made_ctx (r : res ctx) : ctx := match r with Ok c => c | _ => ctx_create end.
Definition found (c : ctx) (n : string) (p : placement) : operator := match ctx_lookup_op c (str n) p with Ok (Some o) => o | _ => op_get_prefix [] 0 end.
Definition v (n : string) : node := NVar (str n) 0 0.
Ltac built_ops := cbn [map]; repeat (apply Forall_cons); try apply Forall_nil; unfold built_call, built;
    solve [left; eauto | right; left; eexists; eexists; eexists; split; [reflexivity|left; lia]
          | right; right; left; eexists; eexists; split; [reflexivity|lia] | right; right; right; eauto].
Definition no_numbers : cstr -> option double := fun _ => None.
Definition no_fmt : double -> cstr := fun _ => [].
(** A postfix operator as strong as a right-associative infix operator: ^(a, !(b)) is printed a^b!, which reads as !(^(a, b)). *)
Definition strong_ops : list operator := [op_get_infix (str "^") 5 ARight; op_get_postfix (str "!") 5].
Definition strong : ctx := made_ctx (small strong_ops).
Lemma strong_set_up : set_up strong.
Proof.
  apply (built_set_up strong_ops (str "no")); [| | |vm_compute; reflexivity].
  - repeat constructor; vm_compute; lia.
  - unfold strong_ops. built_ops.
  - vm_compute. reflexivity.
Qed.
Definition strong_tree : node := NOp (found strong "^" PInfix) [v "a"; NOp (found strong "!" PPostfix) [v "b"] 0] 0.
Definition strong_read : node := NOp (found strong "!" PPostfix) [NOp (found strong "^" PInfix) [v "a"; v "b"] 0] 0.
Ltac var_ok := split; [unfold plain, blank, opening, closing, delimiter; repeat split; vm_compute; discriminate
  |split; [intros []; vm_compute; reflexivity|split; reflexivity]].
Lemma strong_printable : printable_tree no_numbers no_fmt strong strong_tree.
Proof.
  cbn [printable_tree strong_tree v]. split; [vm_compute; reflexivity|]. split; [right; vm_compute; reflexivity|]. split; [var_ok|].
  split; [|exact Logic.I]. split; [vm_compute; reflexivity|]. split; [right; vm_compute; reflexivity|]. split; [var_ok|exact Logic.I].
Qed.
Lemma strong_pieces : tree_pieces no_fmt false strong_tree = Ok [str "a"; str "^"; str "b"; str "!"].
Proof. vm_compute. reflexivity. Qed.
Lemma strong_parsed : (o <- parse_tokens no_numbers (view strong) [str "a"; str "^"; str "b"; str "!"] ;; match o with PTree t => Ok (bare_tree t) | _ => Ub end) = Ok strong_read.
Proof. vm_compute. reflexivity. Qed.
Theorem C22_any_context_refuted : ~ (forall strtod fmt c, set_up c -> forall t, printable_tree strtod fmt c t ->
  exists ps t', tree_pieces fmt false t = Ok ps /\ parse_tokens strtod (view c) ps = Ok (PTree t') /\ bare_tree t' = bare_tree t).
Proof.
  intros H. destruct (H no_numbers no_fmt strong strong_set_up strong_tree strong_printable) as (ps & t' & A & B & D).
  rewrite strong_pieces in A. apply (f_equal (fun r => match r with Ok x => x | _ => [] end)) in A. cbn beta iota in A. subst ps. pose proof strong_parsed as P. rewrite B in P. cbn [rbind] in P. injection P as P. rewrite D in P.
  vm_compute in P. discriminate P.
Qed.
(** A prefix operator whose name contains a percent sign: the name is taken as the format. *)
Definition percent : ctx := made_ctx (small [op_get_prefix (str "%") 5]).
Definition percent_tree : node := NOp (found percent "%" PPrefix) [v "a"] 0.
Lemma percent_format : forall a b, ~ In "%"%char a -> hd NUL b <> "%"%char -> printf_no_args (a ++ "%"%char :: b) = Ub.
Proof.
  induction a as [|c a IH]; intros b N Hb; cbn [app printf_no_args].
  - change (ceqb "%" "%") with true. cbv iota. destruct b as [|d b]; auto. cbn in Hb. destruct (ceqb d "%") eqn:E; auto. apply Ascii.eqb_eq in E. contradiction.
  - destruct (ceqb c "%") eqn:E. { apply Ascii.eqb_eq in E. subst. elim N. left. reflexivity. } rewrite IH; auto. intro X. apply N. right. exact X.
Qed.
(** Every tree with such an operator at its root, unless the percent sign is doubled. *)
Theorem C22_percent_always : forall fmt color op t e a b, o_place op = PPrefix -> o_name op = a ++ "%"%char :: b -> ~ In "%"%char a -> hd NUL b <> "%"%char ->
  tree_pieces fmt color (NOp op [t] e) = Ub /\ tree_to_str fmt color (NOp op [t] e) = Ub.
Proof.
  intros fmt color op t e a b P E N Hb. assert (A : tree_pieces fmt color (NOp op [t] e) = Ub). { unfold tree_pieces. cbn [to_str]. rewrite P, E, percent_format by auto. reflexivity. }
  split; auto. unfold tree_to_str. rewrite A. reflexivity.
Qed.
Theorem C22_percent_crash : set_up percent /\ printable_tree no_numbers no_fmt percent percent_tree /\ tree_pieces no_fmt false percent_tree = Ub.
Proof.
  split; [|split; [|vm_compute; reflexivity]].
  - apply (built_set_up [op_get_prefix (str "%") 5] (str "no")); [| | |vm_compute; reflexivity].
    + repeat constructor; vm_compute; lia.
    + built_ops.
    + vm_compute. reflexivity.
  - cbn [printable_tree percent_tree v]. split; [vm_compute; reflexivity|]. split; [right; vm_compute; reflexivity|]. split; [var_ok|exact Logic.I].
Qed.

(** ** Examples *)
(** Small natural numbers print as digits. *)
Definition toy_fmt (x : double) : cstr :=
  match List.find (fun k => same_double x (of_Z (Z.of_nat k))) (List.seq 0 10) with Some k => [ascii_of_nat (48 + k)] | None => str "?" end.
Definition toy_ok (x : double) : bool :=
  match toy_fmt x with [ch] => is_digit ch && (match strtod [ch] with Some y => same_double x y | None => false end) | _ => false end.
Lemma toy_reads : forall x, toy_ok x = true -> reads_back strtod toy_fmt x.
Proof.
  intros x H. unfold toy_ok in H. unfold reads_back. destruct (toy_fmt x) as [|ch [|]]; try discriminate H. apply andb_true_iff in H. destruct H as [A B].
  split; [discriminate|]. split; [constructor; [apply is_digit_spec; auto|constructor]|]. destruct (strtod [ch]) as [y|]; [|discriminate B]. apply same_double_ok in B. congruence.
Qed.
Notation printing := (bare ["f(x)=x^2"; "g(x,y)=x+y"]).
Notation expression := "-f(2^-3^a)!*(g(1,-b)-(c-d)) mod sum(4,5!!,6%) 7pi" (only parsing).
Lemma printing_lives : lives printing = true. Proof. vm_compute. reflexivity. Qed.
Lemma expression_parses : parses (state printing) expression = true. Proof. vm_compute. reflexivity. Qed.
Lemma expression_constants : forallb toy_ok (constants (snd (tree_in (state printing) expression))) = true. Proof. vm_compute. reflexivity. Qed.
Definition text_of (r : res cstr) : cstr := match r with Ok s => s | _ => [] end.
Example C23_example_text : text_of (tree_to_str toy_fmt false (snd (tree_in (state printing) expression))) = str "(-f(2^(-3)^a)!)*(g(1,-b)-(c-d)) mod sum(4,(5!)!,6%)*7*pi".
Proof. vm_compute. reflexivity. Qed.
Lemma example_reads : Forall (reads_back strtod toy_fmt) (constants (snd (tree_in (state printing) expression))).
Proof. apply Forall_forall. intros x I. apply toy_reads. pose proof expression_constants as H. rewrite forallb_forall in H. exact (H x I). Qed.
Example C23_example := C23_session_reparsed _ _ _ _ _ _ (bare_reached _ printing_lives) toy_fmt _ _ _ (tree_parsed _ _ expression_parses) example_reads.
(** A tree that no text gives: the printer adds the parentheses. *)
Definition ar2 (p : placement) (n : string) (cs : list node) : node := NOp (ar p n) cs 0.
Definition steep : node := ar2 PInfix "^" [ar2 PInfix "^" [ar2 PPrefix "-" [v "a"]; ar2 PPostfix "!" [ar2 PInfix "+" [v "b"; ar2 PPrefix "-" [v "c"]]]]; ar2 PFunction "max" []].
Example C22_example_pieces : option_map (@List.concat _) (match tree_pieces toy_fmt false steep with Ok ps => Some ps | _ => None end) = Some (str "(-a^(b+(-c))!)^max()").
Proof. vm_compute. reflexivity. Qed.
Lemma steep_printable : printable_tree strtod toy_fmt the_arith_ctx steep /\ plain_leaves toy_fmt steep.
Proof.
  apply (good_leaves strtod toy_fmt the_arith_ctx arith_set_up); unfold steep, ar2.
  - cbn [arities_ok]. repeat split; try (right; vm_compute; reflexivity). left. vm_compute. reflexivity.
  - cbn [operators_of flat_map app]. intros op I. repeat (destruct I as [<-|I]; [vm_compute; reflexivity|]). destruct I.
  - vm_compute. constructor.
  - assert (G : forall x, In x ["a"; "b"; "c"] -> good_var strtod the_arith_ctx (str x)).
    { intros x I. split; [split; [intros []; repeat (destruct I as [<-|I]; [vm_compute; reflexivity|]); destruct I|]|apply word_ok; repeat (destruct I as [<-|I]; [vm_compute; reflexivity|]); destruct I].
      split; repeat (destruct I as [<-|I]; [vm_compute; reflexivity|]); destruct I. }
    apply Forall_cons; [apply (G "a"); simpl; auto|]. apply Forall_cons; [apply (G "b"); simpl; auto|]. apply Forall_cons; [apply (G "c"); simpl; auto|]. constructor.
Qed.
Example C22_example := C22_printed_tokens _ _ _ (proj1 arith_ctx_fits) (proj1 (proj2 arith_ctx_fits)) _ (proj1 steep_printable).
Example C23_example_arith := C23_arith _ _ _ (proj1 steep_printable) (proj2 steep_printable).

Print Assumptions C22_printed_tokens.
Print Assumptions C22_any_context_refuted.
Print Assumptions C22_percent_always.
Print Assumptions C22_percent_crash.
Print Assumptions C23_text_parses_back.
Print Assumptions C23_reparsed.
Print Assumptions C23_same_text.
Print Assumptions C23_arith.
Print Assumptions C23_session.
Print Assumptions C23_session_reparsed.
