(** Theorems for tokenizer and operator registry: C11-C15. *)
From Coq Require Import List Ascii String NArith ZArith Bool Lia Arith.
From Verif Require Import M_Base M_StringUtil M_LinkedList M_Trie M_Tree M_Context M_Tokenizer
  S_Util S_Engine L_LinkedList L_Trie L_Tokenizer L_Context.
Import ListNotations.
Open Scope string_scope.
Open Scope list_scope.
Open Scope nat_scope.

(** The keywords stored in a trie after a history of additions and removals *)
Definition keywords {D} (ops : list (trop D)) (k : cstr) : Prop := find_key k (fst (map_run [] ops)) <> None.
Definition tokenize_with {D} (t : trie D) (input : cstr) : res (list cstr) :=
  tokenize (fun s => fst (trie_longest_prefix t s)) input.

Lemma kwlen_spec : forall D (t : trie D) m s, trep t m ->
  let k := fst (trie_longest_prefix t s) in
  k <= List.length s /\ (0 < k -> find_key (firstn k s) m <> None)
  /\ (forall j, k < j <= List.length s -> ~ find_key (firstn j s) m <> None).
Proof.
  intros D t m s T. pose proof (longest_prefix_spec t m s T) as H.
  destruct (trie_longest_prefix t s) as [k d]. destruct H as ((H1 & H2 & H3) & _). simpl.
  split; [exact H1|]. split; [exact H2|]. intros j Hj Hne. rewrite H3 in Hne; auto.
Qed.

Lemma run_trep : forall D (ops : list (trop D)) t bs, Forall op_admissible ops ->
  trie_run trie_create ops = Ok (t, bs) -> trep t (fst (map_run [] ops)).
Proof.
  intros D ops t bs F E. destruct (trie_run_sim ops trie_create [] create_trep F) as (t' & E' & T).
  rewrite E in E'. inversion E'; subst. exact T.
Qed.

(** ** C12: the input is cut the way [lexed] says; that leaves exactly one possibility. *)
Theorem C12_tokens_maximal : forall D (ops : list (trop D)) t bs,
  Forall op_admissible ops -> trie_run trie_create ops = Ok (t, bs) ->
  (forall k, keywords ops k -> ~ starts_in digit_char k) ->
  forall input, exists ts, tokenize_with t input = Ok ts /\ lexed (keywords ops) input ts
    /\ forall ts', lexed (keywords ops) input ts' -> ts' = ts.
Proof.
  intros D ops t bs F E Hd input. pose proof (run_trep D ops t bs F E) as T.
  destruct (tokenize_lexed (fun s => fst (trie_longest_prefix t s)) (keywords ops)) with (input := input) as (ts & E1 & L).
  - intros s. apply kwlen_spec; auto.
  - auto.
  - exists ts. split; [exact E1|]. split; auto.
    intros ts' L'. apply (lexed_det (keywords ops) Hd input); auto.
Qed.
Definition C12_ops : list (trop unit) := [TAdd (str "+") tt; TAdd (str "->") tt; TAdd (str "sin") tt; TAdd (str "-") tt].
Example C12_case :
  match trie_run trie_create C12_ops with
  | Ok (t, _) => tokenize_with t (str "12.5+sinx->a  y-") =
      Ok (map str ["12.5"; "+"; "sinx"; "->"; "a"; " "; " "; "y"; "-"])
  | _ => False
  end /\ (forall k, keywords C12_ops k -> ~ starts_in digit_char k).
Proof.
  split; [vm_compute; reflexivity|]. intros k Hk (c & r & -> & Hc). unfold keywords in Hk.
  assert (Hi : In (c :: r) (map fst (fst (map_run [] C12_ops)))).
  { destruct (in_dec (list_eq_dec ascii_dec) (c :: r) (map fst (fst (map_run [] C12_ops)))) as [|n]; auto.
    apply find_key_In in n. congruence. }
  vm_compute in Hi. clear Hk. unfold digit_char in Hc.
  repeat (destruct Hi as [Hi|Hi]; [inversion Hi; subst; vm_compute in Hc; lia|]). contradiction.
Qed.
Print Assumptions C12_tokens_maximal.

(** ** C11 *)
Theorem C11_tokenizer_lossless : forall D (ops : list (trop D)) t bs,
  Forall op_admissible ops -> trie_run trie_create ops = Ok (t, bs) ->
  (forall k, keywords ops k -> ~ starts_in digit_char k) ->
  forall input, exists ts, tokenize_with t input = Ok ts
    /\ List.concat ts = input /\ Forall (fun tok => tok <> []) ts.
Proof.
  intros D ops t bs F E Hd input.
  destruct (C12_tokens_maximal D ops t bs F E Hd input) as (ts & E1 & L & _).
  exists ts. split; auto. apply (lexed_concat _ _ _ L).
Qed.
(** The restriction is needed: with a keyword that starts with a digit, characters get lost. *)
Example C11_digit_keyword :
  match trie_run trie_create [TAdd (str "2") tt] with
  | Ok (t, _) => tokenize_with t (str "12") = Ok [str "2"; str "2"]
  | _ => False
  end.
Proof. vm_compute. reflexivity. Qed.
Print Assumptions C11_tokenizer_lossless.

(** The same for the keyword trie of a context after any history of calls: only names that are registered
    can be keywords. *)
Theorem C11_context_tokenizer_lossless : forall ops c outs,
  Forall cop_storable ops -> ctx_run ctx_create ops = Ok (c, outs) ->
  (forall r o, reg_run [] ops r outs -> In o r -> ~ starts_in digit_char (o_name o)) ->
  forall input, exists ts, tokenize_with (c_kw c) input = Ok ts
    /\ List.concat ts = input /\ Forall (fun tok => tok <> []) ts.
Proof.
  intros ops c outs F E Hd input.
  destruct (ctx_run_sim ops ctx_create [] create_crep F) as (c' & r & xs & E' & C & RR).
  rewrite E in E'. inversion E'; subst c' xs.
  destruct C as (_ & _ & (m & T & Hm) & _).
  destruct (tokenize_lexed (fun s => fst (trie_longest_prefix (c_kw c) s)) (fun k => find_key k m <> None))
    with (input := input) as (ts & E1 & L).
  - intros s. apply kwlen_spec; auto.
  - intros k Hk. destruct (Hm k Hk) as (o & Ho & <-). apply (Hd r); auto.
  - exists ts. split; [exact E1|]. apply (lexed_concat _ _ _ L).
Qed.
Print Assumptions C11_context_tokenizer_lossless.

(** ** C13 *)
Theorem C13_registry_refines_map : forall ops, Forall cop_storable ops ->
  exists c outs r, ctx_run ctx_create ops = Ok (c, outs) /\ reg_run [] ops r outs
    /\ (forall n p, ctx_lookup_op c n p = Ok (reg_find r n p))
    /\ (forall o, In o r -> reg_find r (o_name o) (o_place o) = Some o)
    /\ (forall a b, In a r -> In b r -> ~ conflicting a b).
Proof.
  intros ops F. destruct (ctx_run_sim ops ctx_create [] create_crep F) as (c & r & xs & E & C & RR).
  exists c, xs, r. split; auto. split; auto. split; [|apply C].
  intros n p. apply lookup_crep; auto.
Qed.
Definition C13_ops : list cop :=
  [CAdd (op_get_infix (str "+") 2 ALeft); CAdd (op_get_prefix (str "+") 7); CAdd (op_get_infix (str "-") 2 ARight);
   CAdd (op_get_infix (str "+") 3 ALeft); CAdd (op_get_function (str "f") None); CDelete (str "+") PPrefix;
   CLookup (str "+") PInfix; CLookup (str "+") PPrefix; CDelete (str "x") PFunction].
Example C13_case : Forall cop_storable C13_ops /\
  match ctx_run ctx_create C13_ops with
  | Ok (_, outs) => outs = [COp (Some (mkOp (str "+") 0 (Some 2) 2 ALeft PInfix 0)); COp (Some (mkOp (str "+") 1 (Some 1) 7 ALeft PPrefix 1));
      COp None; COp None; COp (Some (mkOp (str "f") 2 None 255 ALeft PFunction 2)); CBool true;
      COp (Some (mkOp (str "+") 0 (Some 2) 2 ALeft PInfix 0)); COp None; CBool false]
  | _ => False
  end.
Proof.
  split; [|vm_compute; reflexivity].
  repeat constructor; simpl; repeat constructor; cbn; lia.
Qed.
Print Assumptions C13_registry_refines_map.

(** ** C14: false as soon as an operator older than a registered one has been deleted. *)
Theorem C14_ids_refuted : ~ (forall ops c outs r, Forall cop_storable ops ->
  ctx_run ctx_create ops = Ok (c, outs) -> reg_run [] ops r outs -> NoDup (map o_id r)).
Proof.
  intros H.
  set (ops := [CAdd (op_get_function (str "f") (Some 1)); CAdd (op_get_function (str "g") (Some 1));
               CDelete (str "f") PFunction; CAdd (op_get_function (str "h") (Some 1))]).
  assert (F : Forall cop_storable ops) by (repeat constructor; simpl; repeat constructor; cbn; lia).
  destruct (ctx_run_sim ops ctx_create [] create_crep F) as (c & r & xs & E & C & RR).
  pose proof (H ops c xs r F E RR) as Hnd.
  pose proof (lookup_crep c r (str "g") PFunction C) as Lg.
  pose proof (lookup_crep c r (str "h") PFunction C) as Lh.
  assert (Eg : match ctx_run ctx_create ops with
               | Ok (c, _) => ctx_lookup_op c (str "g") PFunction = Ok (Some (mkOp (str "g") 1 (Some 1) 255 ALeft PFunction 1))
                              /\ ctx_lookup_op c (str "h") PFunction = Ok (Some (mkOp (str "h") 1 (Some 1) 255 ALeft PFunction 2))
               | _ => False end) by (vm_compute; split; reflexivity).
  rewrite E in Eg. destruct Eg as [Eg Eh]. rewrite Eg in Lg. rewrite Eh in Lh.
  inversion Lg as [Lg']. inversion Lh as [Lh']. clear Lg Lh.
  symmetry in Lg', Lh'. apply reg_find_In in Lg'. apply reg_find_In in Lh'.
  destruct Lg' as [Ig _]. destruct Lh' as [Ih _].
  apply in_split in Ig. destruct Ig as (r1 & r2 & ->).
  rewrite map_app in Hnd. simpl in Hnd. apply NoDup_remove_2 in Hnd. apply Hnd.
  rewrite <- map_app. apply in_app_iff in Ih. destruct Ih as [Ih|[Ih|Ih]].
  - change 1 with (o_id (mkOp (str "h") 1 (Some 1) 255 ALeft PFunction 2)). apply in_map. apply in_app_iff; auto.
  - discriminate.
  - change 1 with (o_id (mkOp (str "h") 1 (Some 1) 255 ALeft PFunction 2)). apply in_map. apply in_app_iff; auto.
Qed.
Print Assumptions C14_ids_refuted.

Lemma filter_ids : forall (f : operator -> bool) r, NoDup (map o_id r) -> NoDup (map o_id (filter f r)).
Proof.
  induction r as [|o r IH]; simpl; intros H; auto. inversion H; subst.
  destruct (f o); simpl; auto. constructor; auto. intros Hin. apply H2.
  apply in_map_iff in Hin. destruct Hin as (x & Ex & Hx). apply filter_In in Hx.
  rewrite <- Ex. apply in_map. tauto.
Qed.

Lemma yd_sound : forall b r ops r' outs, youngest_deleted b r ops r' outs ->
  forall c c', crep c r -> Forall cop_storable ops ->
  ctx_run c ops = Ok (c', outs) -> map o_id b = List.seq 0 (List.length b) -> NoDup (map o_id r) ->
  NoDup (map o_id r').
Proof.
  induction 1 as [b r|b r l o r1 x ops r2 xs Hb S1 Y IH|b r o r1 x ops r2 xs Hno S1 Y IH];
    intros c c' C F E Hs Hnd; auto.
  - inversion F; subst. cbn [ctx_run] in E.
    destruct (ctx_step_sim c r (CAdd o) C H1) as (c1 & r1' & x' & E1 & C1 & S1').
    rewrite E1 in E. cbn [rbind] in E.
    destruct (ctx_run c1 ops) as [[c2 xs2]| |] eqn:E2; try discriminate. cbn [rbind] in E. inversion E; subst x' c2 xs2.
    assert (Hr : map o_id r = List.seq 0 (List.length r)).
    { rewrite map_app, app_length, seq_app in Hs. apply app_len_eq in Hs; [tauto|].
      rewrite map_length, seq_length. reflexivity. }
    destruct (addable_dec r o) as [Ha|Ha].
    + destruct (add_ok c r o C H1 Ha) as (c1' & E1' & C1' & _).
      simpl in E1. rewrite E1' in E1. cbn [rbind] in E1. inversion E1; subst c1' x.
      assert (r1 = r ++ [stored c o]).
      { inversion S1; subst; auto. }
      subst r1.
      assert (Hids : map o_id (r ++ [stored c o]) = List.seq 0 (List.length (r ++ [stored c o]))).
      { rewrite map_app, app_length, seq_app, Hr. simpl. f_equal. f_equal.
        unfold list_count. apply count_crep; auto. }
      eapply IH; eauto. rewrite Hids. apply seq_NoDup.
    + simpl in E1. rewrite (add_fail c r o C Ha) in E1. cbn [rbind] in E1. inversion E1; subst c1 x.
      assert (r1 = r) by (inversion S1; subst; auto). subst r1.
      eapply IH; eauto.
  - inversion F; subst. cbn [ctx_run] in E.
    destruct (ctx_step_sim c r o C H1) as (c1 & r1' & x' & E1 & C1 & S1').
    rewrite E1 in E. cbn [rbind] in E.
    destruct (ctx_run c1 ops) as [[c2 xs2]| |] eqn:E2; try discriminate. cbn [rbind] in E. inversion E; subst x' c2 xs2.
    assert (r1' = r1).
    { inversion S1; subst; try (exfalso; eapply Hno; reflexivity); inversion S1'; subst; auto. }
    subst r1'. eapply IH; eauto.
    inversion S1; subst; auto; try (exfalso; eapply Hno; reflexivity). apply filter_ids; auto.
Qed.

Theorem C14_ids_partial : forall ops c outs r, Forall cop_storable ops ->
  ctx_run ctx_create ops = Ok (c, outs) -> youngest_deleted [] [] ops r outs -> NoDup (map o_id r).
Proof.
  intros ops c outs r F E Y. eapply yd_sound; eauto using create_crep. constructor.
Qed.
Definition C14_ops : list cop :=
  [CAdd (op_get_infix (str "+") 2 ALeft); CAdd (op_get_function (str "f") None); CDelete (str "f") PFunction;
   CAdd (op_get_function (str "f") (Some 2))].
Example C14_case : exists c outs r, ctx_run ctx_create C14_ops = Ok (c, outs) /\ youngest_deleted [] [] C14_ops r outs
   /\ map o_id r = [0; 1].
Proof.
  destruct (ctx_run ctx_create C14_ops) as [[c outs]| |] eqn:E; [|vm_compute in E; discriminate|vm_compute in E; discriminate].
  assert (Eo : match ctx_run ctx_create C14_ops with
     | Ok (_, outs) => outs = [COp (Some (mkOp (str "+") 0 (Some 2) 2 ALeft PInfix 0)); COp (Some (mkOp (str "f") 1 None 255 ALeft PFunction 1));
        CBool true; COp (Some (mkOp (str "f") 1 (Some 2) 255 ALeft PFunction 2))]
     | _ => False end) by (vm_compute; reflexivity).
  rewrite E in Eo. subst outs.
  exists c. eexists. exists [mkOp (str "+") 0 (Some 2) 2 ALeft PInfix 0; mkOp (str "f") 1 (Some 2) 255 ALeft PFunction 2].
  split; [reflexivity|]. split; [|reflexivity]. unfold C14_ops.
  eapply (yd_add [] [] []); [reflexivity| |].
  { apply (rs_add []). { split; [reflexivity|]. intros b []. } repeat split. }
  eapply (yd_add _ _ []); [simpl; reflexivity| |].
  { apply rs_add. { split; [reflexivity|]. intros b _ (H & _). discriminate. } repeat split. }
  eapply yd_other; [discriminate| |].
  { eapply rs_delete. reflexivity. }
  eapply (yd_add _ _ [_]); [simpl; reflexivity| |].
  { apply rs_add. { split; [reflexivity|]. intros b _ (H & _). discriminate. } repeat split. }
  apply yd_nil.
Qed.
Print Assumptions C14_ids_partial.

(** ** C15: false for names used in two placements: deleting one takes the keyword from the other. *)
Definition is_keyword (c : ctx) (n : cstr) : bool := fst (trie_contains (c_kw c) n).
Theorem C15_keyword_refuted : ~ (forall ops c outs r o, Forall cop_storable ops ->
  ctx_run ctx_create ops = Ok (c, outs) -> reg_run [] ops r outs -> In o r -> is_keyword c (o_name o) = true).
Proof.
  intros H.
  set (ops := [CAdd (op_get_infix (str "->") 2 ALeft); CAdd (op_get_prefix (str "->") 7); CDelete (str "->") PPrefix]).
  assert (F : Forall cop_storable ops) by (repeat constructor; simpl; repeat constructor; cbn; lia).
  destruct (ctx_run_sim ops ctx_create [] create_crep F) as (c & r & xs & E & C & RR).
  pose proof (lookup_crep c r (str "->") PInfix C) as L.
  assert (Eg : match ctx_run ctx_create ops with
               | Ok (c, _) => ctx_lookup_op c (str "->") PInfix = Ok (Some (mkOp (str "->") 0 (Some 2) 2 ALeft PInfix 0))
                              /\ is_keyword c (str "->") = false
               | _ => False end) by (vm_compute; split; reflexivity).
  rewrite E in Eg. destruct Eg as [Eg Ek]. rewrite Eg in L. inversion L as [L']. symmetry in L'.
  apply reg_find_In in L'. destruct L' as [Hi _].
  specialize (H ops c xs r _ F E RR Hi). cbn [o_name] in H. change (["-"%char; ">"%char]) with (str "->") in H. congruence.
Qed.
Print Assumptions C15_keyword_refuted.

(** What holds: a deletion changes the lookup of no other (name, placement) pair and the keyword status of
    no other name; and an operator whose name was never deleted in any placement is a keyword. *)
Lemma contains_remove : forall (t : trie unit) m n n', trep t m -> n' <> n ->
  fst (trie_contains (trie_remove_str t n) n') = fst (trie_contains t n').
Proof.
  intros t m n n' T Hne.
  rewrite (proj1 (contains_spec _ _ n' (remove_trep _ _ _ n T))), (proj1 (contains_spec _ _ n' T)).
  rewrite remove_key_find. destruct (streqb_spec n n'); [congruence|reflexivity].
Qed.

Lemma contains_add : forall (t t' : trie unit) m n b n', trep t m -> storable n ->
  trie_add_str t n tt = Ok (t', b) ->
  (n' = n -> fst (trie_contains t' n') = true) /\ (n' <> n -> fst (trie_contains t' n') = fst (trie_contains t n')).
Proof.
  intros t t' m n b n' T Hs E. destruct (add_trep' _ t m n tt T Hs) as (t2 & b2 & m' & E2 & T2 & Hm & Hk).
  rewrite E in E2. inversion E2; subst t2 b2.
  rewrite (proj1 (contains_spec _ _ n' T2)), (proj1 (contains_spec _ _ n' T)). split.
  - intros ->. destruct (find_key n m'); congruence.
  - intros Hne. destruct Hm as [->| ->]; auto. simpl. destruct (streqb_spec n n'); [congruence|reflexivity].
Qed.

Definition deletes_name (n : cstr) (o : cop) : Prop := exists p, o = CDelete n p.
Lemma kw_history : forall n ops c r c' outs r', crep c r -> Forall cop_storable ops ->
  (forall o, In o ops -> ~ deletes_name n o) ->
  (forall o, In o r -> o_name o = n -> is_keyword c n = true) ->
  ctx_run c ops = Ok (c', outs) -> reg_run r ops r' outs ->
  forall o, In o r' -> o_name o = n -> is_keyword c' n = true.
Proof.
  intros n. induction ops as [|o ops IH]; intros c r c' outs r' C F Hnd Hk E RR.
  - simpl in E. inversion E; subst. inversion RR; subst. exact Hk.
  - inversion F; subst. inversion RR as [|r0 o0 r1 x ops0 r2 xs S1 R1]; subst.
    cbn [ctx_run] in E.
    destruct (ctx_step_sim c r o C H1) as (c1 & r1' & x' & E1 & C1 & S1').
    rewrite E1 in E. cbn [rbind] in E.
    destruct (ctx_run c1 ops) as [[c2 xs2]| |] eqn:E2; try discriminate. cbn [rbind] in E. inversion E; subst x' c2 xs2.
    assert (r1' = r1) by (inversion S1; subst; inversion S1'; subst; auto; contradiction).
    subst r1'. refine (IH c1 r1 c' xs r' C1 H2 _ _ E2 R1); [intros; apply Hnd; simpl; auto|].
    intros o1 Ho1 Hn1. destruct o as [op|dn dp|ln lp].
    + cbn [ctx_step] in E1.
      destruct (addable_dec r op) as [Ha|Ha].
      * destruct (add_ok c r op C H1 Ha) as (c1' & E1' & C1' & _).
        rewrite E1' in E1. cbn [rbind] in E1. inversion E1; subst c1' x.
        assert (r1 = r ++ [stored c op]) by (inversion S1; subst; auto). subst r1.
        (* keyword trie of the new context *)
        assert (Hkw : exists b, trie_add_str (c_kw c) (o_name op) tt = Ok (c_kw c1, b)).
        { clear - E1' C. unfold ctx_add_op in E1'. rewrite (lookup_crep c r _ _ C) in E1'. cbn [rbind] in E1'.
          destruct (reg_find r (o_name op) (o_place op)); [discriminate|].
          destruct (if placement_eqb (o_place op) PInfix then _ else _) as [bad| |]; try discriminate.
          cbn [rbind] in E1'. destruct bad; [discriminate|].
          destruct (list_append _ _ _) as [[[h l] p]| |]; try discriminate. cbn [rbind] in E1'.
          destruct p; try discriminate.
          destruct (trie_add_str (c_tries c (o_place op)) _ _) as [[t b]| |]; try discriminate. cbn [rbind] in E1'.
          destruct (trie_add_str (c_kw c) _ _) as [[t2 b2]| |]; try discriminate. cbn [rbind] in E1'.
          inversion E1'; subst. exists b2. reflexivity. }
        destruct Hkw as (b & Hkw). destruct C as (_ & _ & (m & T & _) & _).
        destruct (contains_add _ _ m _ _ n T H1 Hkw) as [A1 A2]. unfold is_keyword.
        apply in_app_iff in Ho1. destruct Ho1 as [Ho1|[<-|[]]].
        -- destruct (streqb_spec n (o_name op)) as [En|En]; [apply A1; auto|].
           rewrite A2 by auto. apply (Hk o1); auto.
        -- apply A1. simpl in Hn1. auto.
      * rewrite (add_fail c r op C Ha) in E1. cbn [rbind] in E1. inversion E1; subst c1 x.
        assert (r1 = r) by (inversion S1; subst; auto). subst r1. eauto.
    + assert (Hdn : dn <> n).
      { intros ->. apply (Hnd (CDelete n dp)); [simpl; auto|]. exists dp. reflexivity. }
      cbn [ctx_step] in E1. destruct (reg_find r dn dp) as [od|] eqn:Ef.
      * destruct (delete_ok c r dn dp od C Ef) as (c1' & Ed & C1' & Ekw & _).
        rewrite Ed in E1. cbn [rbind] in E1. inversion E1; subst c1' x.
        unfold is_keyword. rewrite Ekw. destruct C as (_ & _ & (m & T & _) & _).
        rewrite (contains_remove _ m) by auto.
        inversion S1; subst. apply filter_In in Ho1. apply (Hk o1); tauto.
      * rewrite (delete_fail c r dn dp C Ef) in E1. cbn [rbind] in E1. inversion E1; subst c1 x.
        inversion S1; subst. eauto.
    + inversion S1; subst. cbn [ctx_step] in E1. rewrite (lookup_crep c r1 _ _ C) in E1. cbn [rbind] in E1.
      inversion E1; subst. eauto.
Qed.

Theorem C15_deletion_partial : forall ops c outs, Forall cop_storable ops ->
  ctx_run ctx_create ops = Ok (c, outs) ->
  (forall n p c' b, ctx_delete_op c n p = Ok (c', b) ->
     (forall n' p', (n', p') <> (n, p) -> ctx_lookup_op c' n' p' = ctx_lookup_op c n' p')
     /\ (forall n', n' <> n -> is_keyword c' n' = is_keyword c n'))
  /\ (forall r o, reg_run [] ops r outs -> In o r -> (forall p, ~ In (CDelete (o_name o) p) ops) ->
        is_keyword c (o_name o) = true).
Proof.
  intros ops c outs F E.
  destruct (ctx_run_sim ops ctx_create [] create_crep F) as (c0 & r & xs & E' & C & RR).
  rewrite E in E'. inversion E'; subst c0 xs. split.
  - intros n p c' b Ed. destruct (reg_find r n p) as [od|] eqn:Ef.
    + destruct (delete_ok c r n p od C Ef) as (c1 & E1 & C1 & Ekw & _).
      rewrite Ed in E1. inversion E1; subst c1 b. split.
      * intros n' p' Hne. rewrite (lookup_crep _ _ n' p' C1), (lookup_crep _ _ n' p' C).
        rewrite find_filter_other by auto. reflexivity.
      * intros n' Hne. unfold is_keyword. rewrite Ekw. destruct C as (_ & _ & (m & T & _) & _).
        apply (contains_remove _ m); auto.
    + rewrite (delete_fail c r n p C Ef) in Ed. inversion Ed; subst. auto.
  - intros r' o RR' Ho Hnd. eapply (kw_history (o_name o) ops ctx_create [] c outs r'); eauto using create_crep.
    + intros o' Ho' (p & ->). apply (Hnd p); auto.
Qed.
Example C15_case :
  match ctx_run ctx_create C13_ops with
  | Ok (c, _) => is_keyword c (str "f") = true /\ is_keyword c (str "+") = false
      /\ ctx_lookup_op c (str "+") PInfix = Ok (Some (mkOp (str "+") 0 (Some 2) 2 ALeft PInfix 0))
  | _ => False
  end.
Proof. vm_compute. repeat split; reflexivity. Qed.
Print Assumptions C15_deletion_partial.

(** ** C58 *)
(** The operator for implicit multiplication must be able to take two operands. *)
Theorem C58_set_glue_op : forall ops c outs n p o, Forall cop_storable ops -> ctx_run ctx_create ops = Ok (c, outs) ->
  ctx_lookup_op c n p = Ok (Some o) ->
  exists c' b, ctx_set_glue_op c (Some (o_addr o)) = Ok (c', b)
    /\ (b = true <-> o_arity o = None \/ o_arity o = Some 2)
    /\ (b = true -> ctx_glue c' = Ok (Some o)) /\ (b = false -> c' = c)
    /\ (forall n' p', ctx_lookup_op c' n' p' = ctx_lookup_op c n' p').
Proof.
  intros ops c outs n p o F E L. destruct (ctx_run_sim ops ctx_create [] create_crep F) as (c0 & r & xs & E' & C & RR).
  rewrite E in E'. injection E' as <- <-. rewrite (lookup_crep c r n p C) in L. injection L as L. apply reg_find_In in L. destruct L as [Io _].
  destruct (load_crep c r o C Io) as (nd & El & En). unfold ctx_set_glue_op. rewrite El. cbn [rbind]. rewrite En.
  assert (G : forall k, ctx_glue (mkCtx (Some (o_addr o)) (c_heap c) (c_list c) (c_tries c) k) = Ok (Some o)).
  { intros k. unfold ctx_glue. cbn [c_glue c_heap]. rewrite El. cbn [rbind]. rewrite En. reflexivity. }
  destruct (o_arity o) as [[|[|[|k]]]|]; eexists _, _; (split; [reflexivity|]); (split; [|split; [|split]]); auto; try discriminate;
    try (split; [discriminate|intros [Q|Q]; discriminate Q]); split; auto.
Qed.
(** Deleting it leaves a dangling pointer. *)
Definition C58_ops : list cop := [CAdd (op_get_infix (str "*") 4 ALeft)].
Theorem C58_glue_stays_refuted : ~ (forall ops c outs o c1 ops2 c2 outs2, Forall cop_storable (ops ++ ops2) ->
  ctx_run ctx_create ops = Ok (c, outs) -> ctx_lookup_op c (str "*") PInfix = Ok (Some o) ->
  ctx_set_glue_op c (Some (o_addr o)) = Ok (c1, true) -> ctx_run c1 ops2 = Ok (c2, outs2) -> ctx_glue c2 <> Ub).
Proof.
  intros H.
  assert (K : match ctx_run ctx_create C58_ops with
              | Ok (c, _) =>
                match ctx_lookup_op c (str "*") PInfix with
                | Ok (Some o) =>
                  match ctx_set_glue_op c (Some (o_addr o)) with
                  | Ok (c1, true) => match ctx_run c1 [CDelete (str "*") PInfix] with Ok (c2, _) => ctx_glue c2 = Ub | _ => False end
                  | _ => False
                  end
                | _ => False
                end
              | _ => False
              end) by (vm_compute; reflexivity).
  destruct (ctx_run ctx_create C58_ops) as [[c outs]| |] eqn:E1; try contradiction K.
  destruct (ctx_lookup_op c (str "*") PInfix) as [[o|]| |] eqn:E2; try contradiction K.
  destruct (ctx_set_glue_op c (Some (o_addr o))) as [[c1 [|]]| |] eqn:E3; try contradiction K.
  destruct (ctx_run c1 [CDelete (str "*") PInfix]) as [[c2 outs2]| |] eqn:E4; try contradiction K.
  apply (H C58_ops c outs o c1 [CDelete (str "*") PInfix] c2 outs2); auto.
  repeat constructor; simpl; repeat constructor; cbn; lia.
Qed.
Lemma glue_kept : forall c r o c' x, crep c r -> cop_storable o -> ctx_step c o = Ok (c', x) -> c_glue c' = c_glue c.
Proof.
  intros c r o c' x C S E. destruct o as [op|n p|n p]; cbn [ctx_step] in E.
  - destruct (addable_dec r op) as [A|A].
    + destruct (add_ok c r op C S A) as (c1 & E1 & _ & G). rewrite E1 in E. cbn [rbind] in E. injection E as <- <-. auto.
    + rewrite (add_fail c r op C A) in E. cbn [rbind] in E. injection E as <- <-. auto.
  - unfold ctx_delete_op in E. destruct (trie_contains (c_tries c p) n) as [[|] [a|]]; cbn [rbind] in E; try discriminate E; try (injection E as <- <-; auto).
    destruct (list_delete_node (c_heap c) (c_list c) (Some a)) as [[h l]| |]; cbn [rbind] in E; try discriminate E. injection E as <- <-. reflexivity.
  - destruct (ctx_lookup_op c n p); cbn [rbind] in E; try discriminate E. injection E as <- <-. auto.
Qed.
Lemma glue_kept_run : forall ops c r c' outs, crep c r -> Forall cop_storable ops -> ctx_run c ops = Ok (c', outs) -> c_glue c' = c_glue c.
Proof.
  induction ops as [|o ops IH]; intros c r c' outs C F E; cbn [ctx_run] in E. { injection E as <- <-. auto. }
  inversion F; subst. destruct (ctx_step c o) as [[c1 x]| |] eqn:S; cbn [rbind] in E; try discriminate E.
  destruct (ctx_run c1 ops) as [[c2 xs]| |] eqn:R; cbn [rbind] in E; try discriminate E. injection E as <- <-.
  destruct (ctx_run_sim [o] c r C (Forall_cons _ H1 (Forall_nil _))) as (c1' & r1 & ys & E1 & C1 & _). cbn [ctx_run] in E1. rewrite S in E1. cbn [rbind] in E1. injection E1 as <- <-.
  rewrite (IH c1 r1 c2 xs C1 H2 R). eapply glue_kept; eauto.
Qed.
Theorem C58_glue_stays_partial : forall ops c outs n p o c1 ops2, Forall cop_storable (ops ++ ops2) ->
  ctx_run ctx_create ops = Ok (c, outs) -> ctx_lookup_op c n p = Ok (Some o) ->
  ctx_set_glue_op c (Some (o_addr o)) = Ok (c1, true) -> ~ In (CDelete n p) ops2 ->
  exists c2 outs2, ctx_run c1 ops2 = Ok (c2, outs2) /\ ctx_glue c2 = Ok (Some o).
Proof.
  intros ops c outs n p o c1 ops2 F E L S N. apply Forall_app in F. destruct F as [F1 F2].
  destruct (ctx_run_sim ops ctx_create [] create_crep F1) as (c0 & r & xs & E' & C & RR).
  rewrite E in E'. injection E' as <- <-. rewrite (lookup_crep c r n p C) in L. injection L as L. apply reg_find_In in L. destruct L as (Io & <- & <-).
  destruct (load_crep c r o C Io) as (nd & El & En). unfold ctx_set_glue_op in S. rewrite El in S. cbn [rbind] in S.
  assert (c1 = mkCtx (Some (o_addr o)) (c_heap c) (c_list c) (c_tries c) (c_kw c)) as ->.
  { destruct (o_arity (n_data nd)) as [[|[|[|k]]]|]; try discriminate S; injection S as <-; reflexivity. }
  set (c1 := mkCtx _ _ _ _ _). assert (C1 : crep c1 r) by exact C.
  destruct (ctx_run_sim ops2 c1 r C1 F2) as (c2 & r2 & ys & E2 & C2 & R2). exists c2, ys. split; auto.
  assert (I2 : In o r2).
  { clear - R2 Io N. induction R2 as [|r a r1 x ops r2 xs S R IH]; auto. apply IH.
    - inversion S; subst; auto. { apply in_or_app. auto. } apply filter_In. split; auto. apply negb_true_iff.
      destruct (same_slot n p o) eqn:Q; auto. apply same_slot_spec in Q. destruct Q as [<- <-]. exfalso. apply N. left. auto.
    - intros K. apply N. right. auto. }
  unfold ctx_glue. rewrite (glue_kept_run ops2 c1 r c2 ys C1 F2 E2). cbn [c1 c_glue].
  destruct (load_crep c2 r2 o C2 I2) as (nd2 & El2 & En2). rewrite El2. cbn [rbind]. rewrite En2. reflexivity.
Qed.
Example C58_case :
  match ctx_run ctx_create (C58_ops ++ [CAdd (op_get_prefix (str "-") 5)]) with
  | Ok (c, _) =>
    match ctx_lookup_op c (str "*") PInfix, ctx_lookup_op c (str "-") PPrefix with
    | Ok (Some o), Ok (Some o2) =>
      (exists c', ctx_set_glue_op c (Some (o_addr o)) = Ok (c', true)) /\ (exists c', ctx_set_glue_op c (Some (o_addr o2)) = Ok (c', false))
    | _, _ => False
    end
  | _ => False
  end.
Proof. vm_compute. split; eauto. Qed.
Print Assumptions C58_set_glue_op.
Print Assumptions C58_glue_stays_refuted.
Print Assumptions C58_glue_stays_partial.
