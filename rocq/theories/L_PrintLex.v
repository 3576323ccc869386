(** The printed text is cut into the printed pieces. *)
From Coq Require Import List Ascii String NArith ZArith Bool Lia Arith.
From Verif Require Import M_Base M_StringUtil M_LinkedList M_Trie M_Tree M_Context M_Tokenizer M_Parser M_Printer
  S_Util S_Engine S_Parse S_Print L_LinkedList L_Trie L_Tokenizer L_Context P_Context L_ArithCtx L_SetUp L_Lex L_Parser L_ParserBlank L_Print.
Import ListNotations.
Open Scope nat_scope.
Open Scope res_scope.

Lemma lookup_registered : forall c, set_up c -> forall n p o, ctx_lookup_op c n p = Ok (Some o) -> registered c o /\ o_name o = n /\ o_place o = p.
Proof.
  intros c S n p o E. destruct (set_up_crep c S) as (r & C & _). pose proof E as E'. rewrite (lookup_crep _ _ _ _ C) in E'. inversion E' as [F].
  apply reg_find_In in F. destruct F as (_ & <- & <-). auto.
Qed.

Section Lex.
Variable strtod : cstr -> option double.
Variable fmt : double -> cstr.
Variable c : ctx.
Hypothesis S : set_up c.
Hypothesis P : printable_ctx c.
Hypothesis Q : readable_ctx c.
Variable kw : cstr -> Prop.
Hypothesis Alex : forall input, exists ts, tokenize_with (c_kw c) input = Ok ts /\ lexed kw input ts.
Hypothesis K : forall k, kw k -> exists p o, ctx_lookup_op c k p = Ok (Some o) /\ storable k.

Lemma kw_shape : forall k, kw k -> word k \/ symbol k.
Proof.
  intros k H. destruct (K k H) as (p & o & E & _). destruct (lookup_registered c S _ _ _ E) as (R & <- & _).
  destruct (Q o R) as [(W & _)|(W & _)]; auto.
Qed.

Definition follows (r : bool) (rest : cstr) : Prop :=
  match rest with
  | [] => True
  | ch :: _ => ~ letter_char ch /\ ~ digit_char ch /\ (r = false -> ~ symbol_char ch)
  end.
(** brackets, commas, blanks *)
Definition lone (ch : ascii) : Prop := opens ch \/ closes ch \/ ch = ","%char \/ ch = " "%char.
Lemma lone_class : forall ch, lone ch -> ~ letter_char ch /\ ~ digit_char ch /\ ~ symbol_char ch.
Proof.
  intros ch H. assert (X : nat_of_ascii ch = 40 \/ nat_of_ascii ch = 123 \/ nat_of_ascii ch = 41 \/ nat_of_ascii ch = 125 \/ nat_of_ascii ch = 44 \/ nat_of_ascii ch = 32).
  { unfold lone, opens, closes in H. destruct H as [[H|H]|[[H|H]|[->| ->]]]; auto 10. }
  unfold letter_char, digit_char, in_range. split; [lia|]. split; [lia|].
  intros (_ & _ & A & B & C & D). destruct H as [H|[H|[H|H]]]; auto.
Qed.
Lemma lone_follows : forall ch r rest, lone ch -> follows r (ch :: rest).
Proof. intros ch r rest H. destruct (lone_class ch H) as (A & B & C). repeat split; auto. Qed.
Lemma lex_lone : forall ch rest ts, lone ch -> lexed kw rest ts -> lexed kw (ch :: rest) ([ch] :: ts).
Proof.
  intros ch rest ts H L. destruct (lone_class ch H) as (A & B & C). apply lex_other; auto.
  intros k r E N X. destruct k as [|x k]; [congruence|]. inversion E; subst x. destruct (kw_shape _ X) as [(_ & W)|(_ & W)]; inversion W; subst; auto.
Qed.
Lemma lex_word : forall w rest ts, word w -> follows true rest -> lexed kw rest ts -> lexed kw (w ++ rest) (w :: ts).
Proof.
  intros w rest ts (N & W) F L. apply lex_letters; auto. intros (ch & s & -> & X). destruct F as (F1 & F2 & _). contradiction.
Qed.
Lemma lex_num : forall w rest ts, w <> [] -> Forall digit_char w -> follows true rest -> lexed kw rest ts -> lexed kw (w ++ rest) (w :: ts).
Proof.
  intros w rest ts N W F L. apply lex_digits; auto. intros (ch & s & -> & X). destruct F as (F1 & F2 & _). contradiction.
Qed.
(** a registered symbol stands by itself *)
Lemma lex_symbol : forall n rest ts, symbol n -> tokenize_with (c_kw c) n = Ok [n] ->
  (forall ch s, rest = ch :: s -> ~ symbol_char ch) -> lexed kw rest ts -> lexed kw (n ++ rest) (n :: ts).
Proof.
  intros n rest ts (N & Sy) T F L. destruct (Alex n) as (ts0 & T' & L0). rewrite T in T'. inversion T'; subst ts0.
  destruct n as [|ch n]; [congruence|]. inversion Sy as [|? ? (A1 & A2 & _) Sy']; subst.
  assert (Short : forall k r, ch :: n ++ rest = k ++ r -> kw k -> k <> [] -> List.length k <= List.length (ch :: n)).
  { intros k r E X Nk. destruct (Nat.le_gt_cases (List.length k) (List.length (ch :: n))) as [|G]; auto. exfalso.
    assert (Sk : Forall symbol_char k).
    { destruct k as [|x k]; [congruence|]. inversion E; subst x. destruct (kw_shape _ X) as [(_ & W)|(_ & W)]; auto. inversion W; subst; contradiction. }
    assert (E2 : (ch :: n) ++ rest = k ++ r) by exact E.
    assert (Fk : firstn (List.length (ch :: n)) k = ch :: n).
    { pose proof (f_equal (firstn (List.length (ch :: n))) E2) as F2. rewrite firstn_app, firstn_all, Nat.sub_diag in F2. cbn [firstn] in F2.
      rewrite app_nil_r in F2. rewrite firstn_app in F2. replace (List.length (ch :: n) - List.length k) with 0 in F2 by lia.
      rewrite firstn_O, app_nil_r in F2. auto. }
    rewrite <- (firstn_skipn (List.length (ch :: n)) k), Fk in E2, Sk. rewrite <- app_assoc in E2. apply app_inv_head in E2.
    destruct (skipn (List.length (ch :: n)) k) as [|x s] eqn:Es.
    - assert (List.length (skipn (List.length (ch :: n)) k) = 0) by (rewrite Es; reflexivity). rewrite skipn_length in H. lia.
    - apply Forall_app in Sk. destruct Sk as [_ Sk]. inversion Sk; subst. apply (F x (s ++ r)); auto. }
  cbn [app]. inversion L0 as [|w r0 ts0 W1 W2 W3 W4 E1 E2|w r0 ts0 W1 W2 W3 W4 E1 E2|ch0 k0 r0 ts0 W1 W2 W3 E1 E2|ch0 r0 ts0 W1 W2 W3 W4 E1 E2]; subst.
  - exfalso. rewrite E1 in W2. inversion W2; subst; contradiction.
  - exfalso. rewrite E1 in W2. inversion W2; subst; contradiction.
  - assert (r0 = []) as -> by (inversion W3; reflexivity). rewrite !app_nil_r in *. apply lex_keyword; auto. rewrite ?app_nil_r in *. destruct W2 as (_ & _ & W2 & _). split; [exists rest; reflexivity|]. split; [discriminate|]. split; auto.
  - apply lex_other; auto. intros k r E Nk X. pose proof (Short k r E X Nk) as Le. destruct k as [|x [|y k]]; [congruence| |cbn [List.length] in Le; lia].
    inversion E; subst x. apply (W3 [ch] []); auto.
Qed.

(** *** trees *)
Notation printable := (printable_tree strtod fmt c).
Definition text_ok (ps : list cstr) (r : bool) : Prop :=
  forall rest ts, follows r rest -> lexed kw rest ts -> lexed kw (List.concat ps ++ rest) (ps ++ ts).
Definition starts_ok (ps : list cstr) : Prop := exists ch s, List.concat ps = ch :: s /\ ~ symbol_char ch.
Definition lexes (n : node) : Prop := forall l r, exists ps, to_str fmt false n l r = Ok ps
  /\ text_ok ps r /\ (l = true -> starts_ok ps).

Lemma open_lone : lone "("%char. Proof. left. unfold opens. auto. Qed.
Lemma close_lone : lone ")"%char. Proof. right. left. unfold closes. auto. Qed.
Lemma comma_lone : lone ","%char. Proof. right. right. left. reflexivity. Qed.
Lemma blank_lone : lone " "%char. Proof. right. right. right. reflexivity. Qed.
Lemma wrap_text : forall ps r, text_ok ps false -> text_ok (wrap_if true ps) r /\ starts_ok (wrap_if true ps).
Proof.
  intros ps r T. split.
  - intros rest ts F L. unfold wrap_if. cbn [List.concat app]. rewrite concat_app, <- !app_assoc. cbn [List.concat app].
    apply (lex_lone "("%char). { exact open_lone. }
    apply T; [apply lone_follows; exact close_lone|]. apply (lex_lone ")"%char); auto. exact close_lone.
  - exists "("%char. eexists. split; [reflexivity|]. apply lone_class. exact open_lone.
Qed.
Lemma wrap_either : forall b ps r l, text_ok ps (negb b && r) -> (b = false -> l = true -> starts_ok ps) ->
  text_ok (wrap_if b ps) r /\ (l = true -> starts_ok (wrap_if b ps)).
Proof.
  intros [] ps r l T St; [|auto]. destruct (wrap_text ps r T). auto.
Qed.
Lemma child_lexes : forall cond n l r, lexes n ->
  exists ps, (if child_wrapped cond n then b <- to_str fmt false n false false ;; Ok (wrap_if true b) else to_str fmt false n l r) = Ok ps
  /\ text_ok ps r /\ (l = true -> starts_ok ps).
Proof.
  intros cond n l r H. destruct (child_wrapped cond n); [|apply H].
  destruct (H false false) as (ps & -> & T & _). cbn [rbind]. eexists. split; [reflexivity|]. destruct (wrap_text ps r T). auto.
Qed.
Lemma starts_app : forall a b, starts_ok a -> starts_ok (a ++ b).
Proof. intros a b (ch & s & E & N). exists ch, (s ++ List.concat b). rewrite concat_app, E. auto. Qed.

Lemma leaves_all : forall op cs t, plain_leaves fmt (NOp op cs t) -> Forall (plain_leaves fmt) cs.
Proof. intros op cs t H. cbn [plain_leaves] in H. induction cs as [|x l IH]; constructor; [apply H|]. apply IH. apply H. Qed.
Lemma letter_not_symbol : forall ch, letter_char ch -> ~ symbol_char ch.
Proof. intros ch H (A & _). auto. Qed.
Lemma digit_not_symbol : forall ch, digit_char ch -> ~ symbol_char ch.
Proof. intros ch H (_ & A & _). auto. Qed.
Lemma word_starts : forall w ps, word w -> starts_ok (w :: ps).
Proof.
  intros w ps (N & W). destruct w as [|ch w]; [congruence|]. inversion W; subst. exists ch, (w ++ List.concat ps). split; [reflexivity|].
  apply letter_not_symbol. auto.
Qed.
Lemma follows_weaken : forall r rest, follows r rest -> follows true rest.
Proof. intros r [|ch s]; [auto|]. intros (A & B & _). repeat split; auto. discriminate. Qed.
Lemma word_text : forall w r, word w -> text_ok [w] r.
Proof. intros w r W rest ts F L. cbn [List.concat app]. rewrite app_nil_r. apply lex_word; auto. eapply follows_weaken; eauto. Qed.
Lemma starts_rest : forall ps rest ch s, starts_ok ps -> List.concat ps ++ rest = ch :: s -> ~ symbol_char ch.
Proof. intros ps rest ch s (ch' & s' & E & N) E'. rewrite E in E'. inversion E'; subst. exact N. Qed.
Lemma symbol_follows : forall n rest, symbol n -> follows true (n ++ rest).
Proof. intros [|ch n] rest (N & W); [congruence|]. inversion W as [|? ? (A & B & _) ?]; subst. repeat split; auto. discriminate. Qed.
Lemma symbol_no_letter : forall n, symbol n -> is_letter (hd NUL n) = false.
Proof.
  intros [|ch n] (N & W); [congruence|]. inversion W as [|? ? (A & _) ?]; subst. cbn [hd].
  destruct (is_letter ch) eqn:E; auto. apply is_letter_spec in E. contradiction.
Qed.
Lemma word_letter : forall n, word n -> is_letter (hd NUL n) = true.
Proof. intros [|ch n] (N & W); [congruence|]. inversion W; subst. cbn [hd]. apply is_letter_spec. auto. Qed.

Lemma lexes_all : forall n, printable n -> plain_leaves fmt n -> lexes n.
Proof.
  intros n. induction n as [v t|x i t|op cs t IH] using node_ind'; intros H Pl.
  - intros l r. destruct Pl as (N & D). exists [fmt v]. split; [reflexivity|]. split.
    + intros rest ts F L. cbn [List.concat app]. rewrite app_nil_r. apply lex_num; auto. eapply follows_weaken; eauto.
    + intros _. destruct (fmt v) as [|ch s]; [congruence|]. inversion D; subst. exists ch, (s ++ []). split; [reflexivity|]. apply digit_not_symbol. auto.
  - intros l r. exists [x]. split; [reflexivity|]. split; [apply word_text; exact Pl|]. intros _. apply word_starts. exact Pl.
  - assert (A : Forall lexes cs).
    { pose proof (printable_all _ _ _ _ _ _ H) as H1. pose proof (leaves_all _ _ _ Pl) as H2. rewrite Forall_forall in *. intros y Hy. apply IH; auto. }
    clear IH. destruct (printable_op _ _ _ _ _ _ H) as (R & Ar). pose proof (place_made c S op R) as M.
    pose proof (Q op R) as Shape.
    intros l r. unfold made in M. destruct (o_place op) eqn:Ep.
    + destruct Shape as [(_ & [X|X])|(Sy & _ & Tk)]; [discriminate X|discriminate X|].
      rewrite M in Ar. destruct cs as [|c0 [|]]; try (destruct Ar as [Ar|Ar]; discriminate Ar). inversion A as [|? ? A0 _]; subst.
      destruct (child_lexes (pre_cond op) c0 true (negb l && r) A0) as (ps & E & T & St).
      cbn [to_str]. rewrite Ep. destruct P as (_ & _ & Pp & _). destruct (Pp (o_name op) op) as (_ & NP). { rewrite <- Ep. exact R. }
      rewrite (printf_plain _ NP). cbn [rbind]. fold (pre_cond op). rewrite E. cbn [rbind]. eexists. split; [reflexivity|].
      apply wrap_either; [|congruence].
      intros rest ts F L. cbn [List.concat]. rewrite <- app_assoc. cbn [app]. apply lex_symbol; auto.
      intros ch s Es. eapply starts_rest; eauto.
    + destruct M as (M & _). rewrite M in Ar. destruct cs as [|c0 [|c1 [|]]]; try (destruct Ar as [Ar|Ar]; discriminate Ar).
      inversion A as [|? ? A0 A']; subst. inversion A' as [|? ? A1 _]; subst.
      destruct (child_lexes (left_cond op) c0 l true A0) as (ps0 & E0 & T0 & St0).
      destruct (child_lexes (right_cond op) c1 true r A1) as (ps1 & E1 & T1 & St1).
      cbn [to_str]. rewrite Ep. fold (left_cond op). fold (right_cond op). rewrite E0. cbn [rbind]. rewrite E1. cbn [rbind].
      eexists. split; [reflexivity|]. split; [|intros Hl; apply starts_app; auto].
      intros rest ts F L. rewrite concat_app, <- !app_assoc.
      destruct Shape as [(W & _)|(Sy & _ & Tk)].
      * rewrite (word_letter _ W).
        assert (Ec : List.concat ([str " "; o_name op; str " "] ++ ps1) ++ rest = " "%char :: (o_name op ++ " "%char :: (List.concat ps1 ++ rest))).
        { rewrite concat_app. change (List.concat [str " "; o_name op; str " "]) with (" "%char :: (o_name op ++ [" "%char])).
          cbn [app]. rewrite <- !app_assoc. reflexivity. }
        rewrite Ec. change (ps0 ++ [str " "; o_name op; str " "] ++ ps1 ++ ts) with (ps0 ++ [" "%char] :: o_name op :: [" "%char] :: (ps1 ++ ts)).
        apply T0; [apply lone_follows; exact blank_lone|]. apply lex_lone; [exact blank_lone|].
        apply lex_word; [exact W|apply lone_follows; exact blank_lone|]. apply lex_lone; [exact blank_lone|]. apply T1; auto.
      * rewrite (symbol_no_letter _ Sy). rewrite concat_app, <- app_assoc. cbn [List.concat app]. rewrite app_nil_r.
        apply T0; [apply symbol_follows; exact Sy|]. apply lex_symbol; auto. intros ch s Es. eapply starts_rest; eauto.
    + destruct Shape as [(_ & [X|X])|(Sy & _ & Tk)]; [discriminate X|discriminate X|].
      destruct M as (M & _). rewrite M in Ar. destruct cs as [|c0 [|]]; try (destruct Ar as [Ar|Ar]; discriminate Ar). inversion A as [|? ? A0 _]; subst.
      destruct (child_lexes (post_cond op) c0 (l && negb r) true A0) as (ps & E & T & St).
      cbn [to_str]. rewrite Ep. fold (post_cond op). rewrite E. cbn [rbind]. eexists. split; [reflexivity|].
      apply wrap_either.
      * intros rest ts F L. rewrite concat_app, <- !app_assoc. cbn [List.concat app]. rewrite app_nil_r.
        apply T; [apply symbol_follows; exact Sy|]. apply lex_symbol; auto. intros ch s ->. destruct F as (_ & _ & F). apply F.
        destruct r; reflexivity.
      * intros -> ->. apply starts_app. auto.
    + destruct Shape as [(W & _)|(_ & X & _)]; [|congruence].
      destruct (arity_zero (o_arity op)) eqn:Z.
      { cbn [to_str]. rewrite Ep, Z. exists [o_name op]. split; [reflexivity|]. split; [apply word_text; exact W|]. intros _. apply word_starts. exact W. }
      rewrite to_str_fun by assumption.
      assert (X : exists ps, to_args fmt cs = Ok ps /\ text_ok ps false).
      { clear Ar H Pl. induction cs as [|c0 cs IH]. { exists []. split; [reflexivity|]. intros rest ts F L. exact L. }
        inversion A as [|? ? A0 A']; subst. destruct (A0 false false) as (ps & E & T & _). destruct cs as [|c1 cs].
        - exists ps. split; [exact E|exact T].
        - destruct (IH A') as (qs & E' & T'). rewrite to_args_more, E. cbn [rbind]. rewrite E'. cbn [rbind]. eexists. split; [reflexivity|].
          intros rest ts F L. rewrite !concat_app, <- !app_assoc. cbn [List.concat app]. apply T; [apply lone_follows; exact comma_lone|].
          apply (lex_lone ","%char); [exact comma_lone|]. apply T'; auto. }
      destruct X as (ps & E & T). rewrite E. cbn [rbind]. eexists. split; [reflexivity|]. split; [|intros _; apply word_starts; exact W].
      intros rest ts F L. cbn [List.concat app]. rewrite concat_app, <- !app_assoc. cbn [List.concat app].
      apply lex_word; [exact W|apply lone_follows; exact open_lone|]. apply (lex_lone "("%char); [exact open_lone|].
      rewrite <- app_assoc. cbn [List.concat app].
      apply T; [apply lone_follows; exact close_lone|]. apply (lex_lone ")"%char); [exact close_lone|]. exact L.
Qed.
End Lex.

Lemma text_tokens : forall strtod fmt c n, set_up c -> printable_ctx c -> readable_ctx c -> printable_tree strtod fmt c n -> plain_leaves fmt n ->
  exists ps, tree_pieces fmt false n = Ok ps /\ tokenize_with (c_kw c) (List.concat ps) = Ok ps.
Proof.
  intros sd fmt c n S P Q H Pl. destruct (ctx_lexed c S) as (kw & A & B & K).
  destruct (lexes_all sd fmt c S P Q kw A K n H Pl false false) as (ps & E & T & _). exists ps. split; [exact E|].
  apply B. pose proof (T [] [] Logic.I (lex_end kw)) as X. rewrite !app_nil_r in X. exact X.
Qed.
