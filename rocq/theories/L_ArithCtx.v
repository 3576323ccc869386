(** Proofs about the calculator's context. *)
From Coq Require Import List Ascii String NArith ZArith Bool Lia Arith.
From Verif Require Import M_Base M_StringUtil M_LinkedList M_Trie M_Tree M_Context M_Tokenizer M_Parser M_ArithCtx
  S_Util S_Engine S_Parse L_LinkedList L_Trie L_Tokenizer L_Context.
Import ListNotations.
Open Scope nat_scope.
Open Scope res_scope.

Lemma add_ops_run : forall ops c c', ctx_add_ops c ops = Ok (c', true) ->
  exists xs, ctx_run c (map CAdd ops) = Ok (c', xs).
Proof.
  induction ops as [|o ops IH]; intros c c' E; simpl in E.
  - inversion E; subst. exists []. reflexivity.
  - destruct (ctx_add_op c o) as [[c1 [x|]]| |] eqn:E1; cbn [rbind] in E; try discriminate.
    destruct (IH c1 c' E) as (xs & E2). exists (COp (Some x) :: xs). cbn [map ctx_run ctx_step]. rewrite E1. cbn [rbind].
    rewrite E2. reflexivity.
Qed.

(** The operators as the context stores them: numbered in order of addition *)
Definition numbered (ops : list operator) : registry :=
  map (fun x => mkOp (o_name (snd x)) (fst x) (o_arity (snd x)) (o_prec (snd x)) (o_assoc (snd x)) (o_place (snd x)) (fst x))
    (combine (List.seq 0 (List.length ops)) ops).
Definition arith_registry : registry := numbered arith_ops.
Definition star : operator := mkOp (str "*") 6 (Some 2) 4 ALeft PInfix 6.

Definition storableb (n : cstr) : bool := forallb (fun c => (33 <=? nat_of_ascii c) && (nat_of_ascii c <=? 124)) n.
Lemma storableb_spec : forall n, storableb n = true -> storable n.
Proof.
  intros n H. unfold storableb in H. rewrite forallb_forall in H. apply Forall_forall. intros c Hc. apply H in Hc.
  apply andb_true_iff in Hc. destruct Hc as [A B]. apply Nat.leb_le in A, B. lia.
Qed.

Definition the_arith_ctx : ctx := match get_arith_ctx with Ok c => c | _ => ctx_create end.

Lemma arith_storable : Forall cop_storable (map CAdd arith_ops).
Proof.
  apply Forall_forall. intros o Ho. apply in_map_iff in Ho. destruct Ho as (op & <- & Ho). simpl.
  apply storableb_spec.
  assert (H : forallb (fun op => storableb (o_name op)) arith_ops = true) by (vm_compute; reflexivity).
  rewrite forallb_forall in H. auto.
Qed.

Lemma built_ctx_crep : forall ops g c, Forall cop_storable (map CAdd ops) ->
  ('(c, ok) <- ctx_add_ops ctx_create ops ;;
   if ok : bool then
     o <- ctx_lookup_op c g PInfix ;;
     '(c', _) <- ctx_set_glue_op c (option_map o_addr o) ;;
     Ok c'
   else Halt) = Ok c -> exists r, crep c r.
Proof.
  intros ops g c F E.
  destruct (ctx_add_ops ctx_create ops) as [[c1 ok]| |] eqn:E1; cbn [rbind] in E; try discriminate.
  destruct ok; [|discriminate].
  destruct (add_ops_run _ _ _ E1) as (xs & E2).
  destruct (ctx_run_sim _ _ _ create_crep F) as (c' & r & xs' & E3 & C & _).
  rewrite E2 in E3. inversion E3; subst c' xs'.
  destruct (ctx_lookup_op c1 g PInfix) as [o| |]; cbn [rbind] in E; try discriminate.
  assert (H : c_heap c = c_heap c1 /\ c_list c = c_list c1 /\ c_tries c = c_tries c1 /\ c_kw c = c_kw c1).
  { unfold ctx_set_glue_op in E. destruct (option_map o_addr o).
    - destruct (load (c_heap c1) (Some n)) as [nd| |]; cbn [rbind] in E; try discriminate.
      destruct (o_arity (n_data nd)) as [[|[|[|]]]|]; cbn [rbind] in E; inversion E; auto.
    - cbn [rbind] in E. inversion E; auto. }
  destruct H as (H1 & H2 & H3 & H4). exists r.
  unfold crep in *; rewrite H1, H2, H3, H4; exact C.
Qed.

Lemma arith_ctx_ok : get_arith_ctx = Ok the_arith_ctx /\ crep the_arith_ctx arith_registry
  /\ ctx_glue the_arith_ctx = Ok (Some star).
Proof.
  assert (D : match get_arith_ctx with Ok c => list_iterate (S (l_count (c_list c))) (c_heap c) (c_list c) None = Ok arith_registry
      /\ ctx_glue c = Ok (Some star) | _ => False end) by (vm_compute; split; reflexivity).
  assert (K : forall c, get_arith_ctx = Ok c -> exists r, crep c r).
  { intros c. unfold get_arith_ctx. generalize arith_storable. generalize arith_ops. intros ops F. apply built_ctx_crep. exact F. }
  unfold the_arith_ctx. destruct get_arith_ctx as [c| |]; try contradiction.
  destruct D as [D1 D2]. destruct (K c eq_refl) as (r & C). split; [reflexivity|]. split; [|exact D2].
  pose proof (iterate_crep c r C) as Hi. rewrite D1 in Hi. injection Hi as ->. exact C.
Qed.

(** ** Contexts whose operators were built by the four constructors *)
Lemma built_made : forall op, built op -> made op.
Proof.
  intros op [(n & p & ->)|[(n & p & a & -> & H)|[(n & p & -> & H)|(n & a & ->)]]]; unfold made; simpl; auto.
Qed.
Lemma made_same : forall a b, same_definition a b -> made a -> made b.
Proof. intros a b (_ & E1 & E2 & E3 & E4) M. unfold made in *. rewrite <- E1, <- E2, <- E3, <- E4. auto. Qed.
Lemma reg_run_made : forall r ops r' outs, reg_run r ops r' outs -> Forall built_call ops -> Forall made r -> Forall made r'.
Proof.
  induction 1 as [r|r o r1 x ops r2 xs S1 R IH]; intros F M; auto.
  inversion F; subst. apply IH; auto.
  inversion S1; subst; auto.
  - apply Forall_app. split; auto. constructor; auto. eapply made_same; eauto. apply built_made. auto.
  - apply Forall_forall. intros y Hy. apply filter_In in Hy. rewrite Forall_forall in M. apply M. tauto.
Qed.
Lemma view_usual : forall c r, crep c r -> Forall made r ->
  (forall g, ctx_glue c = Ok (Some g) -> o_place g = PInfix /\ made g) -> usual (view c).
Proof.
  intros c r C M G. split.
  - intros p n op E. simpl in E. rewrite (lookup_crep c r n p C) in E. apply reg_find_In in E. destruct E as (Hi & _ & Hp).
    split; auto. rewrite Forall_forall in M. auto.
  - intros g E. simpl in E. destruct (ctx_glue c) as [o| |] eqn:Eg; try discriminate. subst. auto.
Qed.
Definition madeb (op : operator) : bool :=
  match o_place op with
  | PPrefix => arity_eqb (o_arity op) (Some 1)
  | PInfix => arity_eqb (o_arity op) (Some 2) && ((o_prec op <? 255) || ((o_prec op =? 255) && assoc_eqb (o_assoc op) ALeft))
  | PPostfix => arity_eqb (o_arity op) (Some 1) && (o_prec op <=? 255) && assoc_eqb (o_assoc op) ALeft
  | PFunction => o_prec op =? 255
  end.
Lemma madeb_spec : forall op, madeb op = true -> made op.
Proof.
  intros op H. unfold madeb, made in *.
  destruct (o_place op); repeat (apply andb_true_iff in H; destruct H as [H ?]); auto.
  - destruct (o_arity op) as [[|[|]]|]; simpl in H; auto; discriminate.
  - split. { destruct (o_arity op) as [[|[|[|]]]|]; simpl in H; auto; discriminate. }
    apply orb_true_iff in H0. destruct H0 as [H0|H0]; [apply Nat.ltb_lt in H0; auto|].
    apply andb_true_iff in H0. destruct H0 as [A B]. apply Nat.eqb_eq in A. destruct (assoc_eqb_spec (o_assoc op) ALeft); auto. discriminate.
  - split. { destruct (o_arity op) as [[|[|[|]]]|]; simpl in H; auto; discriminate. }
    split; [apply Nat.leb_le; auto|]. destruct (assoc_eqb_spec (o_assoc op) ALeft); auto. discriminate.
  - apply Nat.eqb_eq in H. auto.
Qed.
Lemma arith_made : Forall made arith_registry.
Proof.
  assert (H : forallb madeb arith_registry = true) by (vm_compute; reflexivity).
  rewrite forallb_forall in H. apply Forall_forall. intros o Ho. apply madeb_spec. auto.
Qed.
Lemma arith_usual : usual (view the_arith_ctx).
Proof.
  destruct arith_ctx_ok as (_ & C & G). apply (view_usual _ _ C arith_made). intros g E. rewrite G in E. inversion E; subst.
  split; auto. unfold made; simpl. split; [reflexivity|lia].
Qed.
