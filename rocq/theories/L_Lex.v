(** Blanks and bracket shapes do not change the tokens. *)
From Coq Require Import List Ascii String NArith ZArith Bool Lia Arith.
From Verif Require Import M_Base M_StringUtil M_LinkedList M_Trie M_Tree M_Context M_Tokenizer M_Parser M_ArithCtx
  S_Util S_Engine S_Parse L_LinkedList L_Trie L_Tokenizer L_Context P_Context L_ArithCtx L_SetUp.
Import ListNotations.
Open Scope nat_scope.

Definition sp : ascii := " "%char.

Lemma split_blank : forall k r x b, ~ In sp k -> k ++ r = x ++ sp :: b -> exists r', x = k ++ r'.
Proof.
  induction k as [|c k IH]; intros r x b N E. { exists x. reflexivity. }
  destruct x as [|d x]; simpl in E; inversion E; subst. { exfalso. apply N. simpl. auto. }
  destruct (IH r x b) as (r' & ->); auto. { intros Hi. apply N. simpl. auto. } exists r'. reflexivity.
Qed.
Lemma sp_letter : ~ letter_char sp. Proof. unfold letter_char, in_range, sp. cbn. lia. Qed.
Lemma sp_digit : ~ digit_char sp. Proof. unfold digit_char, in_range, sp. cbn. lia. Qed.
Lemma starts_cut : forall (P : ascii -> Prop) a b, ~ P sp -> ~ starts_in P (a ++ b) -> ~ starts_in P (a ++ sp :: b).
Proof.
  intros P a b N H (c & r & E & Pc). destruct a as [|d a]; simpl in E; inversion E; subst; auto.
  apply H. exists c, (a ++ b). auto.
Qed.

Section Blank.
Variable kw : cstr -> Prop.
Hypothesis clean : forall k, kw k -> ~ In sp k.

Lemma lexed_blank : forall s ts, lexed kw s ts -> forall a b, ts = a ++ b ->
  lexed kw (List.concat a ++ sp :: List.concat b) (a ++ [sp] :: b).
Proof.
  assert (Here : forall s ts, lexed kw s ts -> lexed kw (sp :: s) ([sp] :: ts)).
  { intros s ts L. apply lex_other; auto using sp_letter, sp_digit. intros k r E N K. destruct k as [|c k]; [congruence|].
    simpl in E. inversion E; subst. apply (clean _ K). simpl. auto. }
  intros s ts L. induction L as [|w rest ts W1 W2 W3 L IH|w rest ts W1 W2 W3 L IH|c k rest ts W1 W2 L IH|c rest ts W1 W2 W3 L IH];
    intros a b E.
  - symmetry in E. apply app_eq_nil in E. destruct E as [-> ->]. simpl. apply Here. constructor.
  - destruct a as [|w' a]; simpl in E.
    { subst b. cbn [app List.concat]. destruct (lexed_concat _ _ _ L) as [K _]. rewrite K. apply Here. apply lex_letters; auto. }
    inversion E; subst w' ts. cbn [app List.concat]. rewrite <- app_assoc. apply lex_letters; auto.
    apply starts_cut; auto using sp_letter. destruct (lexed_concat _ _ _ L) as [K _]. rewrite concat_app in K. rewrite K. auto.
  - destruct a as [|w' a]; simpl in E.
    { subst b. cbn [app List.concat]. destruct (lexed_concat _ _ _ L) as [K _]. rewrite K. apply Here. apply lex_digits; auto. }
    inversion E; subst w' ts. cbn [app List.concat]. rewrite <- app_assoc. apply lex_digits; auto.
    apply starts_cut; auto using sp_digit. destruct (lexed_concat _ _ _ L) as [K _]. rewrite concat_app in K. rewrite K. auto.
  - destruct a as [|w' a]; simpl in E.
    { subst b. cbn [app List.concat]. destruct (lexed_concat _ _ _ L) as [K _]. rewrite K. apply Here. apply (lex_keyword kw c k); auto. }
    inversion E; subst w' ts. cbn [app List.concat]. rewrite <- app_assoc. apply lex_keyword; auto.
    destruct (lexed_concat _ _ _ L) as [K _]. rewrite concat_app in K. destruct W2 as (_ & W2 & W4 & W5).
    split; [exists (List.concat a ++ sp :: List.concat b); reflexivity|]. split; auto. split; auto.
    intros k' r' E' K' N'. rewrite app_comm_cons, app_assoc in E'.
    destruct (split_blank k' r' _ _ (clean _ K') (eq_sym E')) as (r2 & E2).
    apply (W5 k' (r2 ++ List.concat b)); auto. rewrite (app_assoc k'), <- E2, <- K. simpl. rewrite <- app_assoc. reflexivity.
  - destruct a as [|w' a]; simpl in E.
    { subst b. cbn [app List.concat]. destruct (lexed_concat _ _ _ L) as [K _]. rewrite K. apply Here. apply lex_other; auto. }
    inversion E; subst w' ts. cbn [app List.concat]. apply lex_other; auto.
    destruct (lexed_concat _ _ _ L) as [K _]. rewrite concat_app in K.
    intros k' r' E' N' K'. rewrite app_comm_cons in E'.
    destruct (split_blank k' r' _ _ (clean _ K') (eq_sym E')) as (r2 & E2).
    apply (W3 k' (r2 ++ List.concat b)); auto. rewrite (app_assoc k'), <- E2, <- K. reflexivity.
Qed.
End Blank.

Section Brackets.
Variable kw : cstr -> Prop.
Definition bracketless (k : cstr) : Prop := Forall (fun ch => ~ opens ch /\ ~ closes ch) k.
Hypothesis clean : forall k, kw k -> bracketless k.

Lemma alike_sym : forall a b, alike_char a b -> alike_char b a.
Proof. unfold alike_char. intros a b [->|[[]|[]]]; auto. Qed.
Lemma bracketless_same : forall k l, bracketless k -> Forall2 alike_char k l -> l = k.
Proof.
  intros k l B F. induction F as [|a b k l A F IH]; auto. inversion B; subst. rewrite IH; auto. f_equal.
  destruct A as [->|[[A _]|[A _]]]; tauto.
Qed.
Lemma bracketless_prefix : forall k s r s', bracketless k -> s = k ++ r -> Forall2 alike_char s s' ->
  exists r', s' = k ++ r' /\ Forall2 alike_char r r'.
Proof.
  intros k s r s' B -> F. apply Forall2_app_inv_l in F. destruct F as (l1 & l2 & F1 & F2 & ->).
  rewrite (bracketless_same k l1); eauto.
Qed.
Lemma alike_rev : forall s s', Forall2 alike_char s s' -> Forall2 alike_char s' s.
Proof. intros s s' F. induction F; constructor; auto using alike_sym. Qed.
Lemma letters_bracketless : forall w, Forall letter_char w -> bracketless w.
Proof. intros w F. eapply Forall_impl; [|exact F]. unfold letter_char, in_range, opens, closes. intros a H. lia. Qed.
Lemma digits_bracketless : forall w, Forall digit_char w -> bracketless w.
Proof. intros w F. eapply Forall_impl; [|exact F]. unfold digit_char, in_range, opens, closes. intros a H. lia. Qed.
Lemma letter_alike : forall a b, alike_char a b -> letter_char a -> letter_char b.
Proof. intros a b [->|[[H _]|[H _]]] L; auto; unfold letter_char, in_range, opens, closes in *; lia. Qed.
Lemma digit_alike : forall a b, alike_char a b -> digit_char a -> digit_char b.
Proof. intros a b [->|[[H _]|[H _]]] L; auto; unfold digit_char, in_range, opens, closes in *; lia. Qed.
Lemma starts_alike : forall (P : ascii -> Prop) s s', (forall a b, alike_char a b -> P a -> P b) -> Forall2 alike_char s s' -> ~ starts_in P s -> ~ starts_in P s'.
Proof.
  intros P s s' H F N (c & r & -> & Pc). inversion F; subst. apply N. eexists _, _. split; eauto. eapply H; eauto using alike_sym.
Qed.

Definition token_alike (a b : cstr) : Prop :=
  a = b \/ (is_opening_parenthesis a = true /\ is_opening_parenthesis b = true)
  \/ (is_closing_parenthesis a = true /\ is_closing_parenthesis b = true).
Lemma char_token : forall a b, alike_char a b -> token_alike [a] [b].
Proof.
  assert (O : forall a, opens a -> is_opening_parenthesis [a] = true).
  { intros a [H|H]; apply (f_equal ascii_of_nat) in H; rewrite ascii_nat_embedding in H; rewrite H; reflexivity. }
  assert (C : forall a, closes a -> is_closing_parenthesis [a] = true).
  { intros a [H|H]; apply (f_equal ascii_of_nat) in H; rewrite ascii_nat_embedding in H; rewrite H; reflexivity. }
  intros a b [->|[[H H']|[H H']]]; unfold token_alike; auto.
Qed.

Lemma lexed_brackets : forall s ts, lexed kw s ts -> forall s', Forall2 alike_char s s' ->
  exists ts', lexed kw s' ts' /\ Forall2 token_alike ts ts'.
Proof.
  intros s ts L. induction L as [|w rest ts W1 W2 W3 L IH|w rest ts W1 W2 W3 L IH|c k rest ts W1 W2 L IH|c rest ts W1 W2 W3 L IH];
    intros s' F.
  - inversion F; subst. exists []. split; constructor.
  - destruct (bracketless_prefix w _ rest s' (letters_bracketless w W2) eq_refl F) as (r' & -> & F').
    destruct (IH r' F') as (ts' & L' & A'). exists (w :: ts'). split; [apply lex_letters; auto|constructor; unfold token_alike; auto].
    eapply starts_alike; eauto using letter_alike.
  - destruct (bracketless_prefix w _ rest s' (digits_bracketless w W2) eq_refl F) as (r' & -> & F').
    destruct (IH r' F') as (ts' & L' & A'). exists (w :: ts'). split; [apply lex_digits; auto|constructor; unfold token_alike; auto].
    eapply starts_alike; eauto using digit_alike.
  - destruct W2 as (_ & W2 & W4 & W5).
    destruct (bracketless_prefix (c :: k) _ rest s' (clean _ W4) eq_refl F) as (r' & -> & F').
    destruct (IH r' F') as (ts' & L' & A'). exists ((c :: k) :: ts'). split; [|constructor; unfold token_alike; auto].
    cbn [app]. apply lex_keyword; auto. split; [eexists; reflexivity|]. split; auto. split; auto.
    intros k' r2 E K N. destruct (bracketless_prefix k' (c :: k ++ r') r2 (c :: k ++ rest) (clean _ K) E (alike_rev _ _ F)) as (r3 & E3 & _).
    eapply W5; eauto.
  - inversion F as [|x c' y r' A F']; subst. destruct (IH r' F') as (ts' & L' & A'). exists ([c'] :: ts').
    split; [|constructor; auto using char_token]. apply lex_other; auto.
    + intros H. apply W1. eapply letter_alike; eauto using alike_sym.
    + intros H. apply W2. eapply digit_alike; eauto using alike_sym.
    + intros k' r2 E N K. destruct (bracketless_prefix k' (c' :: r') r2 (c :: rest) (clean _ K) E (alike_rev _ _ F)) as (r3 & E3 & _).
      eapply W3; eauto.
Qed.
End Brackets.

(** ** For contexts *)
Section Ctx.
Variable c : ctx.
Hypothesis S : set_up c.
Lemma ctx_lexed : exists kw : cstr -> Prop,
  (forall input, exists ts, tokenize_with (c_kw c) input = Ok ts /\ lexed kw input ts)
  /\ (forall input ts, lexed kw input ts -> tokenize_with (c_kw c) input = Ok ts)
  /\ (forall k, kw k -> exists p o, ctx_lookup_op c k p = Ok (Some o) /\ storable k).
Proof.
  destruct (set_up_crep c S) as (r & C & _ & D & St & _). pose proof C as C'. destruct C as (_ & _ & (m & T & Hm) & Hf & _).
  exists (fun k => find_key k m <> None).
  assert (Dk : forall k, find_key k m <> None -> ~ starts_in digit_char k).
  { intros k Hk. destruct (Hm k Hk) as (o & Ho & <-). apply D; auto. }
  assert (A : forall input, exists ts, tokenize_with (c_kw c) input = Ok ts /\ lexed (fun k => find_key k m <> None) input ts).
  { intros input. apply (tokenize_lexed (fun s => fst (trie_longest_prefix (c_kw c) s)) (fun k => find_key k m <> None)); auto.
    intros s. apply kwlen_spec; auto. }
  split; [exact A|]. split.
  - intros input ts L. destruct (A input) as (ts' & E & L'). rewrite E. f_equal. eapply (lexed_det (fun k => find_key k m <> None)); eauto.
  - intros k Hk. destruct (Hm k Hk) as (o & Ho & <-). exists (o_place o), o. split; auto.
    rewrite (lookup_crep c r _ _ C'). f_equal. apply Hf; auto.
Qed.
Lemma storable_no_blank : forall k, storable k -> ~ In sp k.
Proof. intros k H Hi. unfold storable in H. rewrite Forall_forall in H. apply H in Hi. unfold sp in Hi. cbn in Hi. lia. Qed.
Lemma tokens_blank : forall input a b, tokenize_with (c_kw c) input = Ok (a ++ b) ->
  tokenize_with (c_kw c) (List.concat a ++ sp :: List.concat b) = Ok (a ++ [sp] :: b).
Proof.
  intros input a b E. destruct ctx_lexed as (kw & A & B & K). destruct (A input) as (ts & E' & L). rewrite E in E'. inversion E'; subst ts.
  apply B. eapply lexed_blank; eauto. intros k Hk. destruct (K k Hk) as (p & o & _ & St). apply storable_no_blank; auto.
Qed.
Lemma tokens_brackets : no_bracket_names c -> forall input input' ts, tokenize_with (c_kw c) input = Ok ts ->
  Forall2 alike_char input input' -> exists ts', tokenize_with (c_kw c) input' = Ok ts' /\ Forall2 token_alike ts ts'.
Proof.
  intros NB input input' ts E F. destruct ctx_lexed as (kw & A & B & K). destruct (A input) as (ts0 & E' & L). rewrite E in E'. inversion E'; subst ts0.
  destruct (lexed_brackets kw) with (s := input) (ts := ts) (s' := input') as (ts' & L' & F'); auto.
  { intros k Hk. destruct (K k Hk) as (p & o & Lo & _). apply (NB k p o Lo). }
  exists ts'. split; auto.
Qed.
Lemma names_no_paren : no_bracket_names c -> forall p n, pc_lookup (view c) p n <> None ->
  is_opening_parenthesis n = false /\ is_closing_parenthesis n = false.
Proof.
  intros NB p n H. simpl in H. destruct (ctx_lookup_op c n p) as [[o|]| |] eqn:E; try congruence. apply NB in E.
  unfold is_opening_parenthesis, is_closing_parenthesis.
  assert (Q : forall x ch r, str x = ch :: r -> (opens ch \/ closes ch) -> streqb n (str x) = false).
  { intros x ch r Ex Hc. destruct (streqb_spec n (str x)) as [->|]; auto. rewrite Ex in E. inversion E; subst. tauto. }
  rewrite (Q "("%string "("%char []), (Q "{"%string "{"%char []), (Q ")"%string ")"%char []), (Q "}"%string "}"%char []); auto;
    unfold opens, closes; cbn; auto.
Qed.
End Ctx.

Lemma alike_indexed : forall ts ts' i, Forall2 token_alike ts ts' -> Forall2 alike (indexed i ts) (indexed i ts').
Proof.
  intros ts ts' i F. revert i. induction F as [|a b ts ts' A F IH]; intros i; [constructor|].
  unfold indexed in *. simpl. constructor; [exact A|apply IH].
Qed.
Lemma alike_blank : forall a b, alike a b -> blank a = blank b.
Proof.
  intros [i a] [j b]. unfold alike, opening, closing, blank. simpl.
  assert (O : forall x, is_opening_parenthesis x = true -> is_space (hd NUL x) = false).
  { intros x H. unfold is_opening_parenthesis in H. apply orb_true_iff in H. destruct H as [H|H];
    (destruct (streqb_spec x (str "(")); destruct (streqb_spec x (str "{")); subst; try discriminate; reflexivity). }
  assert (C : forall x, is_closing_parenthesis x = true -> is_space (hd NUL x) = false).
  { intros x H. unfold is_closing_parenthesis in H. apply orb_true_iff in H. destruct H as [H|H];
    (destruct (streqb_spec x (str ")")); destruct (streqb_spec x (str "}")); subst; try discriminate; reflexivity). }
  intros [->|[[A B]|[A B]]]; auto; [rewrite !O|rewrite !C]; auto.
Qed.
Lemma alike_unblanked : forall ts ts', Forall2 alike (indexed 0 ts) (indexed 0 ts') -> Forall2 alike (unblanked ts) (unblanked ts').
Proof.
  intros ts ts' F. unfold unblanked. induction F as [|a b l l' A F IH]; simpl; [constructor|].
  rewrite (alike_blank a b A). destruct (blank b); simpl; auto.
Qed.
Lemma alike_shift : forall ts i j, Forall2 alike (filter (fun t => negb (blank t)) (indexed i ts)) (filter (fun t => negb (blank t)) (indexed j ts)).
Proof.
  induction ts as [|t ts IH]; intros i j; [constructor|]. unfold indexed in *. cbn [List.length List.seq combine filter].
  change (blank (i, t)) with (blank (j, t)). destruct (blank (j, t)); simpl; auto. constructor; auto. left. reflexivity.
Qed.
Lemma indexed_app : forall a b i, indexed i (a ++ b) = indexed i a ++ indexed (i + List.length a) b.
Proof.
  induction a as [|t a IH]; intros b i; simpl. { rewrite Nat.add_0_r. reflexivity. }
  unfold indexed in *. cbn [List.length app List.seq combine]. f_equal. rewrite IH. do 3 f_equal. lia.
Qed.
Lemma alike_insert : forall a b, Forall2 alike (unblanked (a ++ b)) (unblanked (a ++ [sp] :: b)).
Proof.
  intros a b. unfold unblanked. rewrite !indexed_app, !filter_app. apply Forall2_app; [apply alike_shift|].
  unfold indexed. cbn [List.length List.seq combine filter]. change (blank (0 + List.length a, [sp])) with true. simpl.
  apply alike_shift.
Qed.
