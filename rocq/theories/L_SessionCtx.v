(** The context of a session: the arithmetic context with functions added and deleted. *)
From Coq Require Import List Ascii String NArith ZArith Bool Lia Arith FunctionalExtensionality.
From Verif Require Import M_Base M_StringUtil M_LinkedList M_Trie M_Tree M_Context M_Tokenizer M_Parser M_ArithCtx
  S_Util S_Engine S_Parse L_LinkedList L_Trie L_Tokenizer L_Context P_Context L_ArithCtx L_SetUp L_Lex.
Import ListNotations.
Open Scope list_scope.
Open Scope nat_scope.
Open Scope res_scope.

Lemma crep_unique : forall c r r', crep c r -> crep c r' -> r = r'.
Proof. intros c r r' A B. pose proof (iterate_crep _ _ A) as E. rewrite (iterate_crep _ _ B) in E. injection E as ->. reflexivity. Qed.

(** ** The glue operator is independent of the rest. *)
Definition sg (a : option nat) (c : ctx) : ctx := mkCtx a (c_heap c) (c_list c) (c_tries c) (c_kw c).
Definition sg2 {A} (a : option nat) (x : res (ctx * A)) : res (ctx * A) := '(c, o) <- x ;; Ok (sg a c, o).
Lemma add_sg : forall a c op, ctx_add_op (sg a c) op = sg2 a (ctx_add_op c op).
Proof.
  intros a c op. unfold ctx_add_op, sg2. change (ctx_lookup_op (sg a c)) with (ctx_lookup_op c).
  destruct (ctx_lookup_op c (o_name op) (o_place op)) as [[o|]| |]; cbn [rbind]; auto.
  cbn [sg c_glue c_heap c_list c_tries c_kw].
  match goal with |- rbind ?x _ = _ => destruct x as [[|]| |] end; cbn [rbind]; auto.
  destruct (list_append (c_heap c) (c_list c) _) as [[[h l] [p|]]| |]; cbn [rbind]; auto.
  destruct (trie_add_str (c_tries c (o_place op)) (o_name op) p) as [[t b]| |]; cbn [rbind]; auto.
  destruct (trie_add_str (c_kw c) (o_name op) tt) as [[k b']| |]; cbn [rbind]; auto.
Qed.
Lemma delete_sg : forall a c n p, ctx_delete_op (sg a c) n p = sg2 a (ctx_delete_op c n p).
Proof.
  intros a c n p. unfold ctx_delete_op, sg2. cbn [sg c_glue c_heap c_list c_tries c_kw].
  destruct (trie_contains (c_tries c p) n) as [[|] [x|]]; cbn [rbind]; auto.
  destruct (list_delete_node (c_heap c) (c_list c) (Some x)) as [[h l]| |]; cbn [rbind]; auto.
Qed.
Lemma crep_sg : forall a c r, crep (sg a c) r <-> crep c r.
Proof. intros a c r. unfold crep. cbn [sg c_glue c_heap c_list c_tries c_kw]. tauto. Qed.

Lemma ctx_run_snoc : forall ops c c1 xs o c2 x, ctx_run c ops = Ok (c1, xs) -> ctx_step c1 o = Ok (c2, x) ->
  ctx_run c (ops ++ [o]) = Ok (c2, xs ++ [x]).
Proof.
  induction ops as [|o' ops IH]; intros c c1 xs o c2 x E S; simpl in *.
  - injection E as <- <-. rewrite S. reflexivity.
  - destruct (ctx_step c o') as [[c3 y]| |]; cbn [rbind] in *; try discriminate E.
    destruct (ctx_run c3 ops) as [[c4 ys]| |] eqn:E4; cbn [rbind] in *; try discriminate E. injection E as -> <-.
    rewrite (IH _ _ _ _ _ _ E4 S). reflexivity.
Qed.

(** ** Tokens *)
Lemma lexed_symbols : forall (kw kw' : cstr -> Prop), (forall n, ~ starts_in letter_char n -> (kw n <-> kw' n)) ->
  forall s ts, lexed kw s ts -> lexed kw' s ts.
Proof.
  intros kw kw' H s ts L.
  assert (W : forall (c : ascii) k, ~ letter_char c -> (kw (c :: k) <-> kw' (c :: k))).
  { intros c k Hc. apply H. intros (x & r & E & Lx). injection E as <- _. auto. }
  induction L as [|w rest ts Hne F N L IH|w rest ts Hne F N L IH|c k rest ts Hl (Hp & Hne & Hk & Hm) L IH|c rest ts Hl Hdg Hno L IH].
  - constructor.
  - apply lex_letters; auto.
  - apply lex_digits; auto.
  - apply lex_keyword; auto. split; auto. split; auto. split. { apply W; auto. }
    intros k' r' E K' Nk. destruct k' as [|x k']; [congruence|]. apply (Hm (x :: k') r' E); auto. injection E as <- _. apply W; auto.
  - apply lex_other; auto. intros k r E Nk K'. destruct k as [|x k]; [congruence|]. apply (Hno (x :: k) r E Nk). injection E as <- _. apply W; auto.
Qed.
Definition same_tokens (c c' : ctx) : Prop := forall input, tokenize_with (c_kw c) input = tokenize_with (c_kw c') input.
Lemma symbols_tokens : forall c c' m m', set_up c -> set_up c' -> trep (c_kw c) m -> trep (c_kw c') m' ->
  (forall n, ~ starts_in letter_char n -> (find_key n m <> None <-> find_key n m' <> None)) -> same_tokens c c'.
Proof.
  intros c c' m m' S S' T T' H input.
  assert (A : forall d (md : list (cstr * unit)), set_up d -> trep (c_kw d) md -> (forall k, find_key k md <> None -> ~ starts_in digit_char k) /\
     exists ts, tokenize_with (c_kw d) input = Ok ts /\ lexed (fun k => find_key k md <> None) input ts).
  { clear. intros d md S T. destruct (set_up_crep d S) as (r & C & _ & D & _ & _). destruct C as (_ & _ & (m1 & T1 & Hm) & _).
    assert (Dk : forall k, find_key k md <> None -> ~ starts_in digit_char k).
    { intros k Hk. destruct (contains_spec _ _ k T) as [X1 _]. destruct (contains_spec _ _ k T1) as [Y1 _].
      destruct (Hm k) as (o & Ho & <-); [|apply D; auto]. intros N. rewrite N in Y1. destruct (find_key k md); [|congruence].
      rewrite X1 in Y1. discriminate Y1. }
    split; auto. apply (tokenize_lexed (fun s => fst (trie_longest_prefix (c_kw d) s)) (fun k => find_key k md <> None)); auto.
    intros s. apply kwlen_spec; auto. }
  destruct (A c m S T) as (D & ts & E & L). destruct (A c' m' S' T') as (D' & ts' & E' & L').
  rewrite E, E'. f_equal. apply (lexed_symbols _ (fun k => find_key k m' <> None)) in L; auto.
  eapply (lexed_det (fun k => find_key k m' <> None)); eauto.
Qed.

(** ** The contexts of a session *)
Definition sctx (c : ctx) (us : registry) : Prop :=
  crep c (arith_registry ++ us) /\ set_up c /\ c_glue c = Some 6 /\ same_tokens c the_arith_ctx.
Lemma star_in : In star arith_registry.
Proof. assert (E : nth_error arith_registry 6 = Some star) by (vm_compute; reflexivity). eapply nth_error_In; eauto. Qed.
Lemma arith_glue : c_glue the_arith_ctx = Some 6.
Proof. vm_compute. reflexivity. Qed.
Lemma sctx_init : sctx the_arith_ctx [].
Proof.
  split. { rewrite app_nil_r. apply arith_ctx_ok. } split. { apply arith_set_up. } split. { apply arith_glue. } intros i. reflexivity.
Qed.
Lemma sctx_glue : forall c us, sctx c us -> ctx_glue c = Ok (Some star).
Proof.
  intros c us (C & _ & G & _). unfold ctx_glue. rewrite G. destruct (load_crep _ _ star C) as (n & E & D).
  { apply in_or_app. left. apply star_in. } change (o_addr star) with 6 in E. rewrite E. cbn [rbind]. rewrite D. reflexivity.
Qed.
Lemma sctx_view : forall c c' us, sctx c us -> sctx c' us -> view c = view c'.
Proof.
  intros c c' us S S'. unfold view. rewrite (sctx_glue _ _ S), (sctx_glue _ _ S'). f_equal.
  apply functional_extensionality. intros p. apply functional_extensionality. intros n.
  rewrite (lookup_crep _ _ _ _ (proj1 S)), (lookup_crep _ _ _ _ (proj1 S')). reflexivity.
Qed.
(** Contexts with the same functions parse alike. *)
Lemma sctx_parse : forall strtod c c' us, sctx c us -> sctx c' us -> forall input, parse_input strtod c input = parse_input strtod c' input.
Proof.
  intros strtod c c' us S S' input. unfold parse_input. rewrite (sctx_view c c' us S S').
  change (tokenize _ input) with (tokenize_with (c_kw c) input) at 1. change (tokenize (fun s : cstr => fst (trie_longest_prefix (c_kw c') s)) input) with (tokenize_with (c_kw c') input).
  rewrite (proj2 (proj2 (proj2 S)) input), (proj2 (proj2 (proj2 S')) input). reflexivity.
Qed.
Lemma letters_storable : forall n, Forall letter_char n -> storable n.
Proof. intros n F. unfold storable. eapply Forall_impl; [|exact F]. intros c. unfold letter_char, in_range. cbn beta. lia. Qed.
Lemma letter_not_digit : forall n, Forall letter_char n -> ~ starts_in digit_char n.
Proof. intros n F (c & r & -> & D). inversion F; subst. eapply digit_not_letter; eauto. Qed.

Lemma set_up_shape : forall c, set_up c -> c_glue c = Some 6 -> exists ops c0 outs r, Forall cop_storable ops /\ Forall built_call ops /\
  ctx_run ctx_create ops = Ok (c0, outs) /\ reg_run [] ops r outs /\ (forall o, In o r -> ~ starts_in digit_char (o_name o)) /\ c = sg (Some 6) c0.
Proof.
  intros c (ops & c0 & outs & r & g & b & F & B & E & R & D & G & S) Gl. exists ops, c0, outs, r.
  split; auto. split; auto. split; auto. split; auto. split; auto.
  pose proof (run_glue _ _ _ _ E) as G0. change (c_glue ctx_create) with (@None nat) in G0.
  unfold ctx_set_glue_op in S. destruct g as [n|].
  - destruct (load (c_heap c0) (Some n)) as [nd| |]; cbn [rbind] in S; try discriminate S.
    destruct (o_arity (n_data nd)) as [[|[|[|]]]|]; injection S as <- _; try congruence; cbn [c_glue] in Gl; injection Gl as ->; reflexivity.
  - injection S as <- _. discriminate Gl.
Qed.
Lemma set_up_step : forall c o c0 c0' x us ops outs, Forall cop_storable ops -> Forall built_call ops -> ctx_run ctx_create ops = Ok (c0, outs) ->
  c = sg (Some 6) c0' -> ctx_step c0 o = Ok (c0', x) -> cop_storable o -> built_call o ->
  crep c (arith_registry ++ us) -> (forall op, In op (arith_registry ++ us) -> ~ starts_in digit_char (o_name op)) -> set_up c.
Proof.
  intros c o c0 c0' x us ops outs F B E -> S Fo Bo C D. apply (proj1 (crep_sg _ _ _)) in C.
  pose proof (ctx_run_snoc _ _ _ _ _ _ _ E S) as E'.
  assert (F' : Forall cop_storable (ops ++ [o])) by (apply Forall_app; auto).
  destruct (ctx_run_sim (ops ++ [o]) ctx_create [] create_crep F') as (c1 & r1 & xs & E1 & C1 & R1).
  rewrite E' in E1. injection E1 as <- <-. rewrite (crep_unique _ _ _ C1 C) in R1. clear C1 r1.
  exists (ops ++ [o]), c0', (outs ++ [x]), (arith_registry ++ us), (Some 6), true.
  split; auto. split. { apply Forall_app. auto. } split; auto. split; auto. split; auto.
  assert (I : In star (arith_registry ++ us)) by (apply in_or_app; left; apply star_in).
  split.
  - right. exists (o_name star), star. split; auto. rewrite (lookup_crep _ _ _ _ C). apply (f_equal (@Ok _)).
    destruct C as (_ & _ & _ & U & _). exact (U star I).
  - unfold ctx_set_glue_op. destruct (load_crep _ _ star C I) as (n & L & Dn). change (o_addr star) with 6 in L. rewrite L. cbn [rbind]. rewrite Dn. reflexivity.
Qed.
Lemma sctx_names : forall c us, sctx c us -> forall o, In o (arith_registry ++ us) -> ~ starts_in digit_char (o_name o).
Proof.
  intros c us (C & S & _) o I. destruct (set_up_crep c S) as (r & C' & _ & D & _). rewrite (crep_unique _ _ _ C C') in I. auto.
Qed.

Lemma sctx_add : forall c us n a, sctx c us -> Forall letter_char n -> n <> [] -> reg_find (arith_registry ++ us) n PFunction = None ->
  exists c', ctx_add_op c (op_get_function n a) = Ok (c', Some (stored c (op_get_function n a))) /\ sctx c' (us ++ [stored c (op_get_function n a)]).
Proof.
  intros c us n a S Ln Ne Fr. pose proof S as (C & Su & G & T). set (op := op_get_function n a).
  assert (Ad : addable (arith_registry ++ us) op). { split; auto. intros b _ (H & _). discriminate H. }
  destruct (add_ok c _ op C (letters_storable _ Ln) Ad) as (c' & E & C' & G'). exists c'. split; auto.
  rewrite <- app_assoc in C'.
  destruct (set_up_shape c Su G) as (ops & c0 & outs & r & F & B & Er & R & D & Ec).
  assert (Su' : set_up c').
  { rewrite Ec, add_sg in E. destruct (ctx_add_op c0 op) as [[c0' o]| |] eqn:E0; cbn [sg2 rbind] in E; try discriminate E. injection E as <- ->.
    apply (set_up_step (sg (Some 6) c0') (CAdd op) c0 c0' (COp (Some (stored c op))) (us ++ [stored c op]) ops outs); auto.
    - cbn [ctx_step]. rewrite E0. rewrite <- Ec. reflexivity.
    - apply letters_storable. auto.
    - right. right. right. exists n, a. reflexivity.
    - intros o I. rewrite app_assoc in I. apply in_app_or in I. destruct I as [I|[<-|[]]]; [eapply sctx_names; eauto|]. apply letter_not_digit. exact Ln. }
  split; auto. split; auto. split; [congruence|]. intros input. rewrite <- (T input). symmetry. revert input.
  pose proof C as (_ & _ & (m & Tm & _) & _).
  destruct (add_trep' unit (c_kw c) m n tt Tm (letters_storable _ Ln)) as (k & bk & m' & Ek & Tk & Hk & _).
  assert (Kw : c_kw c' = k).
  { unfold ctx_add_op in E. rewrite (lookup_crep _ _ _ _ C) in E. change (o_name op) with n in E. change (o_place op) with PFunction in E. rewrite Fr in E. cbn [rbind placement_eqb] in E.
    destruct (list_append (c_heap c) (c_list c) _) as [[[h l] [p|]]| |]; cbn [rbind] in E; try discriminate E.
    destruct (trie_add_str (c_tries c PFunction) n p) as [[t b]| |]; cbn [rbind] in E; try discriminate E.
    rewrite Ek in E. cbn [rbind] in E. inversion E. reflexivity. }
  rewrite <- Kw in Tk. apply (symbols_tokens c c' m m'); auto. intros w Hw. destruct Hk as [->| ->]; [reflexivity|].
  cbn [find_key]. destruct (list_eq_dec ascii_dec n w) as [<-|Nw].
  - exfalso. apply Hw. destruct n as [|x n]; [congruence|]. inversion Ln; subst. exists x, n. auto.
  - simpl. destruct (streqb n w) eqn:Q; [apply streqb_eq in Q; congruence|]. reflexivity.
Qed.

Lemma filter_keep : forall (r : registry) n p, reg_find r n p = None -> filter (fun x => negb (same_slot n p x)) r = r.
Proof.
  intros r n p. unfold reg_find. induction r as [|o r IH]; intros H; auto. simpl in *. destruct (same_slot n p o); [discriminate H|]. simpl. f_equal. auto.
Qed.
Definition without (n : cstr) (us : registry) : registry := filter (fun x => negb (same_slot n PFunction x)) us.
Lemma sctx_delete : forall c us n o, sctx c us -> Forall letter_char n -> n <> [] -> reg_find arith_registry n PFunction = None ->
  reg_find us n PFunction = Some o ->
  exists c', ctx_delete_op c n PFunction = Ok (c', true) /\ sctx c' (without n us).
Proof.
  intros c us n o S Ln Ne Na Nu. pose proof S as (C & Su & G & T).
  assert (Fr : reg_find (arith_registry ++ us) n PFunction = Some o) by (rewrite reg_find_app, Na; auto).
  destruct (delete_ok c _ n PFunction o C Fr) as (c' & E & C' & Kw & G'). exists c'. split; auto.
  rewrite filter_app, (filter_keep _ _ _ Na) in C'. fold (without n us) in C'.
  destruct (set_up_shape c Su G) as (ops & c0 & outs & r & F & B & Er & R & D & Ec).
  assert (Su' : set_up c').
  { rewrite Ec, delete_sg in E. destruct (ctx_delete_op c0 n PFunction) as [[c0' b]| |] eqn:E0; cbn [sg2 rbind] in E; try discriminate E. injection E as <- ->.
    apply (set_up_step (sg (Some 6) c0') (CDelete n PFunction) c0 c0' (CBool true) (without n us) ops outs); auto; try exact Logic.I.
    - cbn [ctx_step]. rewrite E0. reflexivity.
    - intros op I. eapply sctx_names; eauto. apply in_app_or in I. apply in_or_app. destruct I as [I|I]; auto. right. apply filter_In in I. tauto. }
  split; auto. split; auto. split; [congruence|]. intros input. rewrite <- (T input). symmetry. revert input.
  pose proof C as (_ & _ & (m & Tm & _) & _).
  pose proof (remove_trep unit (c_kw c) m n Tm) as Tk. rewrite <- Kw in Tk. apply (symbols_tokens c c' m (remove_key n m)); auto.
  intros w Hw. rewrite remove_key_find. destruct (streqb n w) eqn:Q; [|reflexivity]. exfalso. apply streqb_eq in Q. subst w. apply Hw.
  destruct n as [|x n]; [congruence|]. inversion Ln; subst. exists x, n. auto.
Qed.
Lemma NoDup_both : forall A B (f : A -> B) l l' x, NoDup (map f (l ++ l')) -> In x l -> In x l' -> False.
Proof.
  intros A B f l l' x N I I'. induction l as [|a l IH]; [destruct I|]. simpl in N. inversion N; subst. destruct I as [->|I]; auto.
  apply H1. apply in_map. apply in_or_app. auto.
Qed.
Lemma sctx_unique : forall c us o, sctx c us -> In o us -> reg_find us (o_name o) (o_place o) = Some o /\ reg_find arith_registry (o_name o) (o_place o) = None.
Proof.
  intros c us o (C & _) I. pose proof C as (_ & _ & _ & U & _). pose proof (U o (in_or_app _ _ _ (or_intror I))) as H. rewrite reg_find_app in H.
  destruct (reg_find arith_registry (o_name o) (o_place o)) as [b|] eqn:E; [|auto]. injection H as ->. exfalso.
  apply reg_find_In in E. destruct E as (Ib & _). eapply NoDup_both; [exact (NoDup_keyed _ _ C)|exact Ib|exact I].
Qed.
