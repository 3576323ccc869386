(** Contexts set up by a client: what the parser relies on. *)
From Coq Require Import List Ascii String NArith ZArith Bool Lia Arith.
From Verif Require Import M_Base M_StringUtil M_LinkedList M_Trie M_Tree M_Context M_Tokenizer M_Parser M_ArithCtx
  S_Util S_Engine S_Parse L_LinkedList L_Trie L_Tokenizer L_Context P_Context L_ArithCtx.
Import ListNotations.
Open Scope nat_scope.
Open Scope res_scope.

Lemma reg_step_det : forall r o r1 r2 x, reg_step r o r1 x -> reg_step r o r2 x -> r1 = r2.
Proof. intros r o r1 r2 x A B. inversion A; subst; inversion B; subst; auto; congruence. Qed.
Lemma reg_run_det : forall ops r r1 r2 xs, reg_run r ops r1 xs -> reg_run r ops r2 xs -> r1 = r2.
Proof.
  induction ops as [|o ops IH]; intros r r1 r2 xs A B; inversion A; subst; inversion B; subst; auto.
  match goal with H : reg_step r o ?a x, H' : reg_step r o ?b x |- _ => rewrite (reg_step_det _ _ _ _ _ H H') in * end. eauto.
Qed.
Lemma reg_run_names : forall r ops r' xs, reg_run r ops r' xs ->
  forall o, In o r' -> In o r \/ exists op, In (CAdd op) ops /\ o_name op = o_name o.
Proof.
  induction 1 as [r|r c r1 x ops r2 xs S1 R IH]; intros o Ho; auto.
  destruct (IH o Ho) as [K|(op & A & B)]; [|right; exists op; split; simpl; auto].
  inversion S1; subst; auto.
  - apply in_app_or in K. destruct K as [K|[K|[]]]; auto. right. exists o0. split; [simpl; auto|]. subst o'. match goal with H : same_definition _ _ |- _ => apply H end.
  - apply filter_In in K. tauto.
Qed.

Definition keyword_of (c : ctx) (r : registry) : Prop :=
  exists m, trep (c_kw c) m /\ forall n, find_key n m <> None -> exists o, In o r /\ o_name o = n.

Lemma glue_keeps : forall c g c' b, ctx_set_glue_op c g = Ok (c', b) ->
  c_heap c' = c_heap c /\ c_list c' = c_list c /\ c_tries c' = c_tries c /\ c_kw c' = c_kw c /\ (c_glue c' = g \/ c_glue c' = c_glue c).
Proof.
  intros c g c' b E. unfold ctx_set_glue_op in E. destruct g as [n|].
  - destruct (load (c_heap c) (Some n)) as [nd| |]; cbn [rbind] in E; try discriminate.
    destruct (o_arity (n_data nd)) as [[|[|[|]]]|]; inversion E; subst; simpl; auto 8.
  - inversion E; subst; simpl; auto 8.
Qed.
Lemma run_glue : forall ops c c' xs, ctx_run c ops = Ok (c', xs) -> c_glue c' = c_glue c.
Proof.
  induction ops as [|o ops IH]; intros c c' xs E; simpl in E.
  - inversion E; auto.
  - destruct (ctx_step c o) as [[c1 x]| |] eqn:E1; cbn [rbind] in E; try discriminate.
    destruct (ctx_run c1 ops) as [[c2 ys]| |] eqn:E2; cbn [rbind] in E; try discriminate. inversion E; subst.
    rewrite (IH _ _ _ E2). clear - E1. destruct o as [op|n p|n p]; simpl in E1.
    + destruct (ctx_add_op c op) as [[c2 o]| |] eqn:E; cbn [rbind] in E1; inversion E1; subst.
      unfold ctx_add_op, rbind in E.
      repeat match goal with
      | H : match ?x with _ => _ end = Ok _ |- _ => destruct x; try discriminate
      | H : Ok _ = Ok _ |- _ => inversion H; clear H; subst; auto
      end.
    + destruct (ctx_delete_op c n p) as [[c2 o]| |] eqn:E; cbn [rbind] in E1; inversion E1; subst.
      unfold ctx_delete_op, rbind in E.
      repeat match goal with
      | H : match ?x with _ => _ end = Ok _ |- _ => destruct x; try discriminate
      | H : Ok _ = Ok _ |- _ => inversion H; clear H; subst; auto
      end.
    + destruct (ctx_lookup_op c n p) as [o| |]; cbn [rbind] in E1; inversion E1; subst; auto.
Qed.

Lemma set_up_crep : forall c, set_up c -> exists r, crep c r /\ Forall made r
  /\ (forall o, In o r -> ~ starts_in digit_char (o_name o)) /\ (forall o, In o r -> storable (o_name o))
  /\ (ctx_glue c = Ok None \/ exists g, ctx_glue c = Ok (Some g) /\ In g r /\ o_place g = PInfix).
Proof.
  intros c (ops & c0 & outs & r & g & b & F & B & E & R & D & G & S).
  destruct (ctx_run_sim ops ctx_create [] create_crep F) as (c' & r' & xs & E' & C & RR).
  rewrite E in E'. inversion E'; subst c' xs. pose proof (reg_run_det _ _ _ _ _ R RR) as <-. clear E' RR.
  destruct (glue_keeps _ _ _ _ S) as (H1 & H2 & H3 & H4 & H5).
  assert (C' : crep c r) by (unfold crep in *; rewrite H1, H2, H3, H4; exact C).
  exists r. split; [exact C'|]. split; [eapply reg_run_made; eauto|]. split; [exact D|]. split.
  { intros o Ho. destruct (reg_run_names _ _ _ _ R o Ho) as [[]|(op & A & <-)]. rewrite Forall_forall in F. apply (F _ A). }
  unfold ctx_glue. rewrite (run_glue _ _ _ _ E) in H5. change (c_glue ctx_create) with (@None nat) in H5.
  destruct G as [->|(n & o & L & ->)].
  - left. destruct H5 as [->| ->]; auto.
  - destruct H5 as [->| ->]; [right|left; auto].
    rewrite (lookup_crep c0 r n PInfix C) in L. inversion L as [L']. apply reg_find_In in L'. destruct L' as (Hi & _ & Hp).
    destruct (load_crep c r o C' Hi) as (nd & -> & <-). cbn [rbind]. exists (n_data nd). auto.
Qed.

Lemma set_up_usual : forall c, set_up c -> usual (view c).
Proof.
  intros c S. destruct (set_up_crep c S) as (r & C & M & _ & _ & G). apply (view_usual c r C M).
  intros g E. destruct G as [G|(g' & G & Hi & Hp)]; rewrite G in E; inversion E; subst. split; auto.
  rewrite Forall_forall in M. auto.
Qed.
Lemma set_up_tokens : forall c, set_up c -> forall input,
  exists ts, tokenize_with (c_kw c) input = Ok ts /\ List.concat ts = input /\ Forall (fun t => t <> []) ts.
Proof.
  intros c S input. destruct (set_up_crep c S) as (r & C & _ & D & _ & _). destruct C as (_ & _ & (m & T & Hm) & _).
  destruct (tokenize_lexed (fun s => fst (trie_longest_prefix (c_kw c) s)) (fun k => find_key k m <> None))
    with (input := input) as (ts & E1 & L).
  - intros s. apply kwlen_spec; auto.
  - intros k Hk. destruct (Hm k Hk) as (o & Ho & <-). apply D; auto.
  - exists ts. split; [exact E1|]. apply (lexed_concat _ _ _ L).
Qed.
Lemma parse_input_tokens : forall strtod c, set_up c -> forall input,
  exists ts, tokenize_with (c_kw c) input = Ok ts /\ List.concat ts = input
    /\ parse_input strtod c input = (o <- parse_tokens strtod (view c) ts ;; Ok (ts, o)).
Proof.
  intros strtod c S input. destruct (set_up_tokens c S input) as (ts & E & K & _). exists ts. split; auto. split; auto.
  unfold parse_input. unfold tokenize_with in E. rewrite E. reflexivity.
Qed.

(** ** The arithmetic context is one *)
Definition noted (n : cstr) : bool := match n with c :: _ => negb ((48 <=? nat_of_ascii c) && (nat_of_ascii c <=? 57) || (nat_of_ascii c =? 46)) | [] => true end.
Lemma noted_spec : forall n, noted n = true -> ~ starts_in digit_char n.
Proof.
  intros n H (c & r & -> & D). unfold noted in H. unfold digit_char, in_range in D. apply negb_true_iff in H. apply orb_false_iff in H.
  destruct H as [H1 H2]. apply Nat.eqb_neq in H2. apply andb_false_iff in H1. rewrite !Nat.leb_gt in H1. lia.
Qed.
Lemma built_set_up : forall ops g c, Forall cop_storable (map CAdd ops) -> Forall built_call (map CAdd ops) ->
  forallb (fun op => noted (o_name op)) ops = true ->
  ('(c, ok) <- ctx_add_ops ctx_create ops ;;
   if ok : bool then
     o <- ctx_lookup_op c g PInfix ;;
     '(c', _) <- ctx_set_glue_op c (option_map o_addr o) ;;
     Ok c'
   else Halt) = Ok c -> set_up c.
Proof.
  intros ops g c F B N E.
  destruct (ctx_add_ops ctx_create ops) as [[c1 ok]| |] eqn:E1; cbn [rbind] in E; try discriminate.
  destruct ok; [|discriminate].
  destruct (add_ops_run _ _ _ E1) as (xs & E2).
  destruct (ctx_run_sim _ _ _ create_crep F) as (c' & r & xs' & E3 & C & RR).
  rewrite E2 in E3. inversion E3; subst c' xs'.
  destruct (ctx_lookup_op c1 g PInfix) as [o| |] eqn:El; cbn [rbind] in E; try discriminate.
  destruct (ctx_set_glue_op c1 (option_map o_addr o)) as [[c2 b]| |] eqn:Eg; cbn [rbind] in E; try discriminate.
  inversion E; subst c2. exists (map CAdd ops), c1, xs, r, (option_map o_addr o), b.
  split; auto. split; auto. split; auto. split; auto. split.
  { intros x Hx. destruct (reg_run_names _ _ _ _ RR x Hx) as [[]|(op & A & <-)].
    apply in_map_iff in A. destruct A as (op' & A & A'). inversion A; subst. rewrite forallb_forall in N. apply noted_spec. auto. }
  split; auto. destruct o as [o|]; simpl; [right|left; auto]. exists g, o. auto.
Qed.
Lemma arith_built : Forall built_call (map CAdd arith_ops).
Proof.
  unfold arith_ops. cbn [map]. repeat (apply Forall_cons); try apply Forall_nil; unfold built_call, built, op_get_constant;
    solve [left; eauto | right; left; eexists; eexists; eexists; split; [reflexivity|left; lia]
          | right; right; left; eexists; eexists; split; [reflexivity|lia] | right; right; right; eauto].
Qed.
Lemma arith_noted : forallb (fun op => noted (o_name op)) arith_ops = true.
Proof. vm_compute; reflexivity. Qed.
Lemma arith_set_up : set_up the_arith_ctx.
Proof.
  assert (K : forall c, get_arith_ctx = Ok c -> set_up c).
  { intros c. unfold get_arith_ctx. generalize arith_storable, arith_built, arith_noted. generalize arith_ops. intros ops F B N.
    apply built_set_up; auto. }
  apply K. apply arith_ctx_ok.
Qed.
