(** Proofs about the parser: running it on an expression. *)
From Coq Require Import List Ascii String NArith ZArith Bool Lia Arith.
From Verif Require Import M_Base M_StringUtil M_Tree M_Context M_Tokenizer M_Parser S_Engine S_Parse L_Trie L_Context.
Import ListNotations.
Open Scope nat_scope.
Open Scope res_scope.

Scheme sterm_mut := Induction for sterm Sort Prop
  with sargs_mut := Induction for sargs Sort Prop.
Combined Scheme sterm_sargs_ind from sterm_mut, sargs_mut.

Lemma yields_spec : forall b a, yields b a = true <-> goes_left a b.
Proof.
  intros. unfold yields, goes_left. rewrite orb_true_iff, andb_true_iff, Nat.ltb_lt, Nat.eqb_eq.
  destruct (assoc_eqb_spec (o_assoc b) ALeft); intuition congruence.
Qed.
Lemma yields_false : forall b a, yields b a = false <-> ~ goes_left a b.
Proof. intros. rewrite <- yields_spec. destruct (yields b a); intuition congruence. Qed.

Lemma arity_eqb_spec : forall a b, reflect (a = b) (arity_eqb a b).
Proof.
  destruct a, b; simpl; try (constructor; congruence).
  destruct (Nat.eqb_spec n n0); constructor; congruence.
Qed.
Lemma arity_refl : forall a, arity_eqb a a = true.
Proof. intros. destruct (arity_eqb_spec a a); congruence. Qed.

(** ** Popping *)
Lemma pop_insert_ops : forall s s' b, op_pop_and_insert s = Ok (s', b) ->
  exists od, p_ops s = od :: p_ops s'.
Proof.
  intros s s' b H. unfold op_pop_and_insert in H. destruct (p_ops s) as [|od ops] eqn:E; [discriminate|].
  destruct (od_op od).
  - destruct (_ && _); [inversion H; subst; simpl; eauto|].
    destruct (count_of (od_arity od)); cbn [rbind] in H; try discriminate.
    destruct (_ <? _); inversion H; subst; simpl; eauto.
  - inversion H; subst; simpl; eauto.
Qed.

Lemma pop_unfold : forall cond s, pop_all_while cond s =
  match p_ops s with
  | [] => Ok (s, true)
  | od :: _ =>
    match od_op od with
    | None => Ok (s, true)
    | Some op => if cond op then
                   '(s', ok) <- op_pop_and_insert s ;;
                   if ok : bool then pop_all_while cond s' else Ok (s', false)
                 else Ok (s, true)
    end
  end.
Proof.
  intros. unfold pop_all_while at 1. destruct (p_ops s) as [|od ops] eqn:E; simpl; rewrite E; auto.
  destruct (od_op od) as [op|] eqn:Eo; auto.
  destruct (cond op); auto.
  destruct (op_pop_and_insert s) as [[s' b]| |] eqn:Ep; cbn [rbind]; auto.
  destruct b; auto. apply pop_insert_ops in Ep. destruct Ep as (od' & Ep).
  rewrite E in Ep. inversion Ep; subst. reflexivity.
Qed.

(** [over]: put pending operators and nodes on top *)
Definition over (u : list opdata * list node) (s : pstate) : pstate :=
  mkSt (snd u ++ p_nodes s) (fst u ++ p_ops s) (p_res s) (p_tok s) (p_ai s) (p_ap s).

(** A successful pop of an operator whose operands are on the stack *)
Lemma pop_op : forall op k tok cs st ops,
  (o_arity op = None \/ o_arity op = Some k) -> List.length cs = k ->
  forall ns, ns = rev cs ->
  op_pop_and_insert (over (mkOd (Some op) (Some k) tok :: ops, ns) st)
  = Ok (over (ops, [NOp op cs tok]) st, true).
Proof.
  intros op k tok cs st ops Ha Hl ns ->. unfold op_pop_and_insert, over. cbn [fst snd p_ops p_nodes app od_op od_arity od_tok].
  replace (negb (arity_eqb (o_arity op) None) && negb (arity_eqb (o_arity op) (Some k))) with false
    by (destruct Ha as [->| ->]; rewrite ?arity_refl; simpl; rewrite ?andb_false_r; auto).
  cbn [count_of rbind].
  rewrite app_length, rev_length.
  assert (E : (List.length cs + List.length (p_nodes st) <? k) = false) by (apply Nat.ltb_ge; lia).
  rewrite E. rewrite firstn_app, rev_length, skipn_app, rev_length.
  rewrite Hl, Nat.sub_diag. rewrite firstn_all2 by (rewrite rev_length; lia).
  rewrite skipn_all2 by (rewrite rev_length; lia). simpl. rewrite app_nil_r, rev_involutive. reflexivity.
Qed.

(** What is pending after an expression was read: its right spine *)
Fixpoint unred (s : sterm) : list opdata * list node :=
  match s with
  | SPre op t x => (fst (unred x) ++ [mkOd (Some op) (Some 1) (fst t)], snd (unred x))
  | SInf op l t r => (fst (unred r) ++ [mkOd (Some op) (Some 2) (fst t)], snd (unred r) ++ [erase l])
  | SGlue g l r => (fst (unred r) ++ [mkOd (Some g) (Some 2) (fst (first r))], snd (unred r) ++ [erase l])
  | SFun op t _ args => ([mkOd (Some op) (Some (nargs args)) (fst t)], rev (erase_args args))
  | SEmpty op t _ _ => ([mkOd (Some op) (Some 0) (fst t)], [])
  | _ => ([], [erase s])
  end.

Lemma erase_args_length : forall a, List.length (erase_args a) = nargs a.
Proof. induction a; simpl; auto. Qed.

Section Run.
Variable strtod : cstr -> option double.
Variable pc : pctx.
Hypothesis U : usual pc.

Lemma named_place : forall p t op, named pc p t op -> o_place op = p.
Proof. intros. apply U in H. tauto. Qed.
Lemma named_made : forall p t op, named pc p t op -> made op.
Proof. intros. apply U in H. tauto. Qed.
Lemma prefix_arity : forall t op, named pc PPrefix t op -> o_arity op = Some 1.
Proof. intros. pose proof (named_made _ _ _ H) as M. unfold made in M. rewrite (named_place _ _ _ H) in M. auto. Qed.
Lemma infix_arity : forall t op, named pc PInfix t op -> o_arity op = Some 2.
Proof. intros. pose proof (named_made _ _ _ H) as M. unfold made in M. rewrite (named_place _ _ _ H) in M. tauto. Qed.
Lemma postfix_arity : forall t op, named pc PPostfix t op -> o_arity op = Some 1.
Proof. intros. pose proof (named_made _ _ _ H) as M. unfold made in M. rewrite (named_place _ _ _ H) in M. tauto. Qed.
Lemma glue_arity : forall g, pc_glue pc = Some g -> o_arity g = Some 2 /\ o_place g = PInfix.
Proof.
  intros. destruct U as [_ U2]. destruct (U2 g H) as [P M]. unfold made in M. rewrite P in M. tauto.
Qed.
(** infix and postfix operators pop finished functions *)
Lemma pops_function : forall o f, made o -> (o_place o = PInfix \/ o_place o = PPostfix) ->
  made f -> o_place f = PFunction -> goes_left f o.
Proof.
  intros o f Mo Po Mf Pf. unfold made in *. rewrite Pf in Mf. unfold goes_left. rewrite Mf.
  destruct Po as [P|P]; rewrite P in Mo; destruct Mo as [_ Mo].
  - destruct Mo as [|[-> ->]]; auto.
  - destruct Mo as [Hp ->]. destruct (Nat.eq_dec (o_prec o) 255); [auto|left; lia].
Qed.

(** the pending operators are the right edge, or a function *)
Lemma unred_ops : forall s od, wfs strtod pc s -> In od (fst (unred s)) ->
  exists o, od_op od = Some o /\ (In o (right_edge s) \/ (made o /\ o_place o = PFunction)).
Proof.
  induction s using sterm_mut with (P0 := fun _ => True); simpl; try exact I; intros od W Hin; try tauto; cbn in W.
  - destruct Hin as [<-|[]]. simpl. eexists; split; eauto. right.
    destruct W as (_ & W & _). split; [eapply named_made|eapply named_place]; eauto.
  - destruct Hin as [<-|[]]. simpl. eexists; split; eauto. right.
    destruct W as (_ & W & _). split; [eapply named_made|eapply named_place]; eauto.
  - apply in_app_iff in Hin. destruct Hin as [Hin|[<-|[]]].
    + destruct (IHs od) as (o & E & [H|H]); try tauto; eauto.
    + simpl. eauto.
  - apply in_app_iff in Hin. destruct Hin as [Hin|[<-|[]]].
    + destruct (IHs2 od) as (o & E & [H|H]); try tauto; eauto.
    + simpl. eauto.
  - apply in_app_iff in Hin. destruct Hin as [Hin|[<-|[]]].
    + destruct (IHs2 od) as (o & E & [H|H]); try tauto; eauto.
    + simpl. eauto.
Qed.

Definition op_cond (cond : operator -> bool) (od : opdata) : Prop :=
  exists o, od_op od = Some o /\ cond o = true.

Lemma over_app : forall a b c d st, over (a ++ b, c ++ d) st = over (a, c) (over (b, d) st).
Proof. intros. unfold over. simpl. rewrite !app_assoc. reflexivity. Qed.

(** Popping everything that is pending builds the tree. *)
Lemma pop_unred : forall s cond st, wfs strtod pc s ->
  (forall od, In od (fst (unred s)) -> op_cond cond od) ->
  pop_all_while cond (over (unred s) st) = pop_all_while cond (over ([], [erase s]) st).
Proof.
  induction s using sterm_mut with (P0 := fun _ => True); try exact I; cbn [unred]; intros cond st W Hc; auto.
  - (* SFun *) rewrite pop_unfold. cbn [over fst p_ops app].
    destruct (Hc (mkOd (Some op) (Some (nargs args)) (fst t))) as (o' & E & Hcond); [simpl; auto|].
    simpl in E. inversion E; subst o'. cbn [od_op]. rewrite Hcond.
    change (mkSt _ _ (p_res st) _ _ _) with
      (over (mkOd (Some op) (Some (nargs args)) (fst t) :: [], rev (erase_args args)) st).
    rewrite (pop_op op (nargs args) (fst t) (erase_args args)); auto using erase_args_length.
    cbn in W. tauto.
  - (* SEmpty *) rewrite pop_unfold. cbn [over fst p_ops app].
    destruct (Hc (mkOd (Some op) (Some 0) (fst t))) as (o' & E & Hcond); [simpl; auto|].
    simpl in E. inversion E; subst o'. cbn [od_op]. rewrite Hcond.
    change (mkSt _ _ (p_res st) _ _ _) with (over (mkOd (Some op) (Some 0) (fst t) :: [], []) st).
    rewrite (pop_op op 0 (fst t) []); auto.
    cbn in W. tauto.
  - (* SPre *)
    replace (over (fst (unred s) ++ [mkOd (Some op) (Some 1) (fst t)], snd (unred s)) st)
      with (over (unred s) (over ([mkOd (Some op) (Some 1) (fst t)], []) st)).
    2:{ destruct (unred s). simpl. rewrite <- over_app, app_nil_r. reflexivity. }
    cbn in W. destruct W as (_ & _ & Wn & W).
    rewrite IHs; auto. 2:{ intros od Hi. apply Hc. simpl. apply in_app_iff; auto. }
    rewrite pop_unfold. cbn [over fst snd p_ops p_nodes app].
    destruct (Hc (mkOd (Some op) (Some 1) (fst t))) as (o' & E & Hcond); [simpl; apply in_app_iff; simpl; auto|].
    simpl in E. inversion E; subst o'. cbn [od_op]. rewrite Hcond.
    change (over ([], [erase s]) (over ([mkOd (Some op) (Some 1) (fst t)], []) st)) with (over (mkOd (Some op) (Some 1) (fst t) :: [], [erase s]) st).
    rewrite (pop_op op 1 (fst t) [erase s]); auto. right. eapply prefix_arity; eauto.
  - (* SInf *)
    replace (over (fst (unred s2) ++ [mkOd (Some op) (Some 2) (fst t)], snd (unred s2) ++ [erase s1]) st)
      with (over (unred s2) (over ([mkOd (Some op) (Some 2) (fst t)], [erase s1]) st)).
    2:{ destruct (unred s2). simpl. rewrite <- over_app. reflexivity. }
    cbn in W. destruct W as (_ & _ & Wn & W).
    rewrite IHs2; auto. 2:{ intros od Hi. apply Hc. simpl. apply in_app_iff; auto. }
    rewrite pop_unfold. cbn [over fst snd p_ops p_nodes app].
    destruct (Hc (mkOd (Some op) (Some 2) (fst t))) as (o' & E & Hcond); [simpl; apply in_app_iff; simpl; auto|].
    simpl in E. inversion E; subst o'. cbn [od_op]. rewrite Hcond.
    change (over ([], [erase s2]) (over ([mkOd (Some op) (Some 2) (fst t)], [erase s1]) st)) with (over (mkOd (Some op) (Some 2) (fst t) :: [], [erase s2; erase s1]) st).
    rewrite (pop_op op 2 (fst t) [erase s1; erase s2]); auto. right. eapply infix_arity; eauto.
  - (* SGlue *)
    replace (over (fst (unred s2) ++ [mkOd (Some g) (Some 2) (fst (first s2))], snd (unred s2) ++ [erase s1]) st)
      with (over (unred s2) (over ([mkOd (Some g) (Some 2) (fst (first s2))], [erase s1]) st)).
    2:{ destruct (unred s2). simpl. rewrite <- over_app. reflexivity. }
    cbn in W. destruct W as (Wg & _ & W & _ & _).
    rewrite IHs2; auto. 2:{ intros od Hi. apply Hc. simpl. apply in_app_iff; auto. }
    rewrite pop_unfold. cbn [over fst snd p_ops p_nodes app].
    destruct (Hc (mkOd (Some g) (Some 2) (fst (first s2)))) as (o' & E & Hcond); [simpl; apply in_app_iff; simpl; auto|].
    simpl in E. inversion E; subst o'. cbn [od_op]. rewrite Hcond.
    change (over ([], [erase s2]) (over ([mkOd (Some g) (Some 2) (fst (first s2))], [erase s1]) st)) with (over (mkOd (Some g) (Some 2) (fst (first s2)) :: [], [erase s2; erase s1]) st).
    rewrite (pop_op g 2 (fst (first s2)) [erase s1; erase s2]); auto. right. apply glue_arity; auto.
Qed.

(** ** Running over tokens with positions *)
Fixpoint run (s : pstate) (ts : list tk) : res ctl :=
  match ts with
  | [] => Ok (Next s)
  | t :: ts' =>
    r <- step strtod pc s (fst t) (snd t) ;;
    match r with
    | Next s' => run s' ts'
    | Exit s' => Ok (Exit s')
    end
  end.
Lemma run_app : forall a s b, run s (a ++ b) =
  (r <- run s a ;; match r with Next s' => run s' b | Exit s' => Ok (Exit s') end).
Proof.
  induction a as [|t a IH]; intros; simpl; auto.
  destruct (step strtod pc s (fst t) (snd t)) as [[s'|s']| |]; simpl; auto.
Qed.
Lemma run_indexed : forall ts s i, tokens_loop strtod pc s i ts = run s (indexed i ts).
Proof.
  induction ts as [|t ts IH]; intros; simpl; auto.
  destruct (step strtod pc s i t) as [[s'|s']| |]; simpl; auto.
  apply IH.
Qed.
Lemma step_tok : forall s k i t, step strtod pc (set_tok s k) i t = step strtod pc s i t.
Proof. reflexivity. Qed.
Definition upto (k : nat) (r : res ctl) : res ctl :=
  match r with Ok (Next s) => Ok (Next (set_tok s k)) | _ => r end.
Lemma run_tok : forall ts s k j, upto j (run (set_tok s k) ts) = upto j (run s ts).
Proof. destruct ts; intros; simpl; auto. Qed.
Lemma run_unblank : forall ts s j,
  upto j (run s ts) = upto j (run s (filter (fun t => negb (blank t)) ts)).
Proof.
  induction ts as [|[i t] ts IH]; intros; simpl; auto.
  unfold blank at 1. simpl. destruct (is_space (hd NUL t)) eqn:E; simpl.
  - unfold step at 1. rewrite E. simpl. rewrite IH. apply run_tok.
  - destruct (step strtod pc s i t) as [[s'|s']| |]; simpl; auto.
Qed.

Definition conclude (r : res ctl) (n : nat) : res pout :=
  r <- r ;;
  match r with
  | Exit s => Ok (at_exit s)
  | Next s =>
    r2 <- finish s n ;;
    match r2 with
    | Exit s2 => Ok (at_exit s2)
    | Next s2 =>
      match p_nodes s2 with
      | [] => Ub
      | n :: _ => if perr_is_success (p_res s2) then Ok (PTree n) else Ok (PErr (p_res s2) (p_tok s2))
      end
    end
  end.
Lemma conclude_upto : forall r n, conclude r n = conclude (upto 0 r) n.
Proof. intros [[s|s]| |] n; reflexivity. Qed.
Lemma parse_unblanked : forall ts,
  parse_tokens strtod pc ts = conclude (run init_pstate (unblanked ts)) (List.length ts).
Proof.
  intros. unfold parse_tokens. rewrite run_indexed.
  change (conclude (run init_pstate (indexed 0 ts)) (List.length ts)
          = conclude (run init_pstate (unblanked ts)) (List.length ts)).
  rewrite conclude_upto, (conclude_upto (run _ (unblanked ts))). unfold unblanked.
  rewrite run_unblank. reflexivity.
Qed.

(** ** C19: reading an expression *)
Definition holds_back (s : pstate) (ops : list operator) : Prop :=
  match p_ops s with
  | mkOd (Some top) _ _ :: _ => forall o, In o ops -> ~ goes_left top o
  | _ => True
  end.

Lemma pop_stops : forall cond s, (match p_ops s with mkOd (Some top) _ _ :: _ => cond top = false | _ => True end) ->
  pop_all_while cond s = Ok (s, true).
Proof.
  intros cond s H. rewrite pop_unfold. destruct (p_ops s) as [|[[op|] a k] ops]; auto.
  simpl. rewrite H. auto.
Qed.

Lemma closing_cases : forall t, closing t -> blank t = false /\ ~ opening t /\ ~ delimiter t.
Proof.
  intros [i t] H. unfold closing, blank, opening, delimiter, is_closing_parenthesis in *. simpl in *.
  apply orb_true_iff in H. rewrite !streqb_eq in H.
  destruct H; subst; vm_compute; repeat split; congruence.
Qed.
Lemma opening_cases : forall t, opening t -> blank t = false /\ ~ closing t /\ ~ delimiter t.
Proof.
  intros [i t] H. unfold closing, blank, opening, delimiter, is_opening_parenthesis in *. simpl in *.
  apply orb_true_iff in H. rewrite !streqb_eq in H.
  destruct H; subst; vm_compute; repeat split; congruence.
Qed.
Lemma delimiter_cases : forall t, delimiter t -> blank t = false /\ ~ opening t /\ ~ closing t.
Proof.
  intros [i t] H. unfold closing, blank, opening, delimiter, is_delimiter in *. simpl in *.
  rewrite streqb_eq in H. subst; vm_compute; repeat split; congruence.
Qed.
Definition stops (cond : operator -> bool) (ops : list opdata) : Prop :=
  match ops with mkOd (Some top) _ _ :: _ => cond top = false | _ => True end.

Lemma reduce : forall s cond ns ops r k ai ap, wfs strtod pc s ->
  (forall od, In od (fst (unred s)) -> op_cond cond od) -> stops cond ops ->
  pop_all_while cond (mkSt (snd (unred s) ++ ns) (fst (unred s) ++ ops) r k ai ap)
  = Ok (mkSt (erase s :: ns) ops r k ai ap, true).
Proof.
  intros s cond ns ops r k ai ap W Hc Hs.
  pose proof (pop_unred s cond (mkSt ns ops r k ai ap) W Hc) as H.
  unfold over in H at 1. simpl in H. rewrite H. apply pop_stops. exact Hs.
Qed.

(** *** One token *)
Ltac nospace H := unfold step; unfold blank in H; cbv zeta; rewrite H.

Lemma plain_inv : forall t, plain t -> blank t = false /\ is_opening_parenthesis (snd t) = false
  /\ is_closing_parenthesis (snd t) = false /\ is_delimiter (snd t) = false.
Proof.
  intros t (A & B & C & D). unfold opening, closing, delimiter in *.
  repeat split; auto; apply not_true_iff_false; auto.
Qed.

Lemma glue_skip : forall s t, p_ai s = false -> step_glue pc s t = Ok (Next s).
Proof. intros s t H. unfold step_glue. destruct (pc_glue pc); auto. rewrite H. reflexivity. Qed.
Lemma glue_skip_infix : forall s t op, named pc PInfix t op -> step_glue pc s (snd t) = Ok (Next s).
Proof.
  intros s t op H. unfold step_glue. destruct (pc_glue pc); auto. unfold has. rewrite H.
  rewrite !andb_false_r. reflexivity.
Qed.
Lemma glue_skip_postfix : forall s t op, named pc PPostfix t op -> step_glue pc s (snd t) = Ok (Next s).
Proof.
  intros s t op H. unfold step_glue. destruct (pc_glue pc); auto. unfold has. rewrite H.
  rewrite !andb_false_r. reflexivity.
Qed.
Lemma glue_skip_closing : forall s t, closing t -> step_glue pc s (snd t) = Ok (Next s).
Proof.
  intros s t H. unfold step_glue. destruct (pc_glue pc); auto. rewrite H.
  rewrite !andb_false_r. reflexivity.
Qed.
Lemma glue_skip_delimiter : forall s t, delimiter t -> step_glue pc s (snd t) = Ok (Next s).
Proof.
  intros s t H. unfold step_glue. destruct (pc_glue pc); auto. rewrite H.
  rewrite !andb_false_r. reflexivity.
Qed.

Lemma step_open : forall t ns ops r k ap, opening t ->
  step strtod pc (mkSt ns ops r k false ap) (fst t) (snd t)
  = Ok (Next (mkSt ns (mkOd None None (fst t) :: ops) r (fst t) false false)).
Proof.
  intros t ns ops r k ap H. destruct (opening_cases t H) as (B & _ & _). nospace B.
  rewrite glue_skip by reflexivity. cbn [rbind]. unfold step_main. unfold opening in H. rewrite H. reflexivity.
Qed.

Lemma main_plain : forall s t, plain t -> p_ap s = false ->
  step_main strtod pc s (fst t) (snd t) = step_operator strtod pc s (fst t) (snd t).
Proof.
  intros s t P Hap. destruct (plain_inv t P) as (_ & E1 & E2 & E3). unfold step_main. rewrite E1, Hap, E2, E3. auto.
Qed.

Lemma step_const : forall t v ns ops r k, plain t -> no_name pc PFunction t -> no_name pc PPrefix t ->
  strtod (snd t) = Some v ->
  step strtod pc (mkSt ns ops r k false false) (fst t) (snd t)
  = Ok (Next (mkSt (NConst v (fst t) :: ns) ops r (fst t) true false)).
Proof.
  intros t v ns ops r k P H1 H2 H3. destruct (plain_inv t P) as (B & _). nospace B.
  rewrite glue_skip by reflexivity. cbn [rbind]. rewrite main_plain by auto.
  unfold step_operator. simpl. rewrite H1, H2. unfold step_leaf. rewrite H3. reflexivity.
Qed.

Lemma step_var : forall t ns ops r k, plain t -> (forall p, no_name pc p t) ->
  strtod (snd t) = None -> is_letter (hd NUL (snd t)) = true ->
  step strtod pc (mkSt ns ops r k false false) (fst t) (snd t)
  = Ok (Next (mkSt (NVar (snd t) 0 (fst t) :: ns) ops r (fst t) true false)).
Proof.
  intros t ns ops r k P H1 H2 H3. destruct (plain_inv t P) as (B & _). nospace B.
  rewrite glue_skip by reflexivity. cbn [rbind]. rewrite main_plain by auto.
  unfold step_operator. simpl. rewrite (H1 PFunction), (H1 PPrefix). unfold step_leaf, has.
  rewrite H2, (H1 PInfix), (H1 PPostfix), H3. reflexivity.
Qed.

Lemma function_push : forall s op, o_place op = PFunction ->
  push_operator s op = Ok (push_od s (mkOd (Some op) (Some 0) (p_tok s)), true).
Proof. intros s op H. unfold push_operator. rewrite H. unfold op_push. simpl. rewrite H. auto. Qed.
Lemma prefix_push : forall s op, o_place op = PPrefix ->
  push_operator s op = Ok (push_od s (mkOd (Some op) (o_arity op) (p_tok s)), true).
Proof. intros s op H. unfold push_operator. rewrite H. unfold op_push. simpl. rewrite H. auto. Qed.

Lemma step_null : forall t op ns ops r k, plain t -> named pc PFunction t op -> o_arity op = Some 0 ->
  step strtod pc (mkSt ns ops r k false false) (fst t) (snd t)
  = Ok (Next (mkSt (NOp op [] (fst t) :: ns) ops r (fst t) true false)).
Proof.
  intros t op ns ops r k P H1 H2. destruct (plain_inv t P) as (B & _). nospace B.
  rewrite glue_skip by reflexivity. cbn [rbind]. rewrite main_plain by auto.
  unfold step_operator. simpl. rewrite H1. rewrite function_push by (eapply named_place; eauto).
  cbn [rbind negb]. rewrite H2. simpl. unfold op_pop_and_insert. simpl. rewrite H2. simpl. reflexivity.
Qed.

Lemma step_function : forall t op ns ops r k, plain t -> named pc PFunction t op -> o_arity op <> Some 0 ->
  step strtod pc (mkSt ns ops r k false false) (fst t) (snd t)
  = Ok (Next (mkSt ns (mkOd (Some op) (Some 0) (fst t) :: ops) r (fst t) false true)).
Proof.
  intros t op ns ops r k P H1 H2. destruct (plain_inv t P) as (B & _). nospace B.
  rewrite glue_skip by reflexivity. cbn [rbind]. rewrite main_plain by auto.
  unfold step_operator. simpl. rewrite H1. rewrite function_push by (eapply named_place; eauto).
  cbn [rbind negb]. destruct (arity_eqb_spec (o_arity op) (Some 0)); [congruence|]. reflexivity.
Qed.

Lemma step_prefix : forall t op ns ops r k, plain t -> no_name pc PFunction t -> named pc PPrefix t op ->
  step strtod pc (mkSt ns ops r k false false) (fst t) (snd t)
  = Ok (Next (mkSt ns (mkOd (Some op) (Some 1) (fst t) :: ops) r (fst t) false false)).
Proof.
  intros t op ns ops r k P H0 H1. destruct (plain_inv t P) as (B & _). nospace B.
  rewrite glue_skip by reflexivity. cbn [rbind]. rewrite main_plain by auto.
  unfold step_operator. simpl. rewrite H0, H1. rewrite prefix_push by (eapply named_place; eauto).
  cbn [rbind negb]. rewrite (prefix_arity t op H1). reflexivity.
Qed.

Lemma binary_push : forall op ns ops r k ns' ops', o_place op = PInfix ->
  pop_all_while (yields op) (mkSt ns ops r k true false) = Ok (mkSt ns' ops' r k true false, true) ->
  push_operator (mkSt ns ops r k true false) op
  = Ok (mkSt ns' (mkOd (Some op) (o_arity op) k :: ops') r k true false, true).
Proof.
  intros op ns ops r k ns' ops' Hp H. unfold push_operator. rewrite Hp. unfold op_push. cbn [od_op]. rewrite Hp, H.
  reflexivity.
Qed.

Lemma step_infix : forall t op ns ops r k ns' ops', plain t -> named pc PInfix t op ->
  pop_all_while (yields op) (mkSt ns ops r (fst t) true false) = Ok (mkSt ns' ops' r (fst t) true false, true) ->
  step strtod pc (mkSt ns ops r k true false) (fst t) (snd t)
  = Ok (Next (mkSt ns' (mkOd (Some op) (Some 2) (fst t) :: ops') r (fst t) false false)).
Proof.
  intros t op ns ops r k ns' ops' P H1 H. destruct (plain_inv t P) as (B & _). nospace B.
  rewrite (glue_skip_infix _ _ op) by auto. cbn [rbind]. rewrite main_plain by auto.
  unfold step_operator. cbn [set_tok p_ai negb]. rewrite H1.
  unfold set_tok. cbn [p_nodes p_ops p_res p_ai p_ap].
  rewrite (binary_push op ns ops r (fst t) ns' ops') by (auto; eapply named_place; eauto).
  cbn [rbind]. rewrite (infix_arity t op H1). reflexivity.
Qed.

Lemma step_postfix : forall t op ns ops r k n ns' ops', plain t -> no_name pc PInfix t -> named pc PPostfix t op ->
  pop_all_while (yields op) (mkSt ns ops r (fst t) true false) = Ok (mkSt (n :: ns') ops' r (fst t) true false, true) ->
  step strtod pc (mkSt ns ops r k true false) (fst t) (snd t)
  = Ok (Next (mkSt (NOp op [n] (fst t) :: ns') ops' r (fst t) true false)).
Proof.
  intros t op ns ops r k n ns' ops' P H0 H1 H. destruct (plain_inv t P) as (B & _). nospace B.
  rewrite (glue_skip_postfix _ _ op) by auto. cbn [rbind]. rewrite main_plain by auto.
  unfold step_operator. cbn [set_tok p_ai negb]. rewrite H0, H1.
  unfold set_tok, push_operator. pose proof (named_place _ _ _ H1) as Hp. rewrite Hp. unfold op_push. cbn [od_op].
  rewrite Hp. cbn [p_nodes p_ops p_res p_ai p_ap p_tok] in *. rewrite H. cbn [rbind negb].
  unfold op_pop_and_insert, push_od. cbn [p_nodes p_ops p_res p_ai p_ap p_tok od_op od_arity od_tok].
  rewrite (postfix_arity t op H1). simpl. reflexivity.
Qed.

(** an implicit multiplication in front of a token *)
Lemma step_glued : forall g t ns ops r k ns' ops', pc_glue pc = Some g ->
  blank t = false -> ~ closing t -> ~ delimiter t -> no_name pc PInfix t -> no_name pc PPostfix t ->
  pop_all_while (yields g) (mkSt ns ops r (fst t) true false) = Ok (mkSt ns' ops' r (fst t) true false, true) ->
  step strtod pc (mkSt ns ops r k true false) (fst t) (snd t)
  = step strtod pc (mkSt ns' (mkOd (Some g) (Some 2) (fst t) :: ops') r (fst t) false false) (fst t) (snd t).
Proof.
  intros g t ns ops r k ns' ops' Hg B C D H0 H1 H. nospace B.
  rewrite (glue_skip (set_tok (mkSt ns' _ r (fst t) false false) (fst t))) by reflexivity.
  unfold step_glue. rewrite Hg. unfold closing, delimiter in *. unfold has. rewrite H0, H1.
  rewrite (proj1 (not_true_iff_false _) C), (proj1 (not_true_iff_false _) D). cbn [set_tok p_ai negb andb].
  unfold set_tok. cbn [p_nodes p_ops p_res p_ai p_ap p_tok].
  destruct (glue_arity g Hg) as [Ga Gp].
  rewrite (binary_push g ns ops r (fst t) ns' ops') by auto. reflexivity.
Qed.

(** closing parenthesis behind an operand *)
Definition count_arg (ops : list opdata) : list opdata :=
  match ops with
  | mkOd (Some f) a k :: ops' => if placement_eqb (o_place f) PFunction then mkOd (Some f) (inc a) k :: ops' else ops
  | _ => ops
  end.
Lemma step_close : forall t ns ops r k ns' a i ops', closing t ->
  pop_all_while (fun _ => true) (mkSt ns ops r (fst t) true false)
    = Ok (mkSt ns' (mkOd None a i :: ops') r (fst t) true false, true) ->
  step strtod pc (mkSt ns ops r k true false) (fst t) (snd t)
  = Ok (Next (mkSt ns' (count_arg ops') r (fst t) true false)).
Proof.
  intros t ns ops r k ns' a i ops' C H. destruct (closing_cases t C) as (B & O & _). nospace B.
  rewrite glue_skip_closing by auto. cbn [rbind]. unfold step_main.
  unfold opening in O. rewrite (proj1 (not_true_iff_false _) O). unfold closing in C. rewrite C.
  unfold set_tok. cbn [p_nodes p_ops p_res p_ai p_ap p_tok]. unfold step_closing. rewrite H.
  cbn [rbind negb p_ops]. unfold op_pop_and_insert. cbn [p_ops od_op rbind p_nodes p_res p_tok p_ai p_ap].
  destruct ops' as [|[[f|] a' i'] ops']; auto. cbn [od_op od_arity count_arg].
  destruct (placement_eqb (o_place f) PFunction); reflexivity.
Qed.

Lemma step_close_empty : forall t ns ops r k a i f j, closing t -> o_place f = PFunction ->
  step strtod pc (mkSt ns (mkOd None a i :: mkOd (Some f) (Some 0) j :: ops) r k false false) (fst t) (snd t)
  = Ok (Next (mkSt ns (mkOd (Some f) (Some 0) j :: ops) r (fst t) true false)).
Proof.
  intros t ns ops r k a i f j C Pf. destruct (closing_cases t C) as (B & O & _). nospace B.
  rewrite glue_skip_closing by auto. cbn [rbind]. unfold step_main.
  unfold opening in O. rewrite (proj1 (not_true_iff_false _) O). unfold closing in C. rewrite C.
  unfold set_tok. cbn [p_nodes p_ops p_res p_ai p_ap p_tok]. unfold step_closing.
  rewrite pop_stops by exact I. cbn [rbind negb p_ops]. unfold op_pop_and_insert. simpl. rewrite Pf. reflexivity.
Qed.

Lemma step_delim : forall t ns ops r k ns' top f a j ops', delimiter t -> o_place f = PFunction ->
  pop_all_while (fun _ => true) (mkSt ns ops r (fst t) true false)
    = Ok (mkSt ns' (top :: mkOd (Some f) a j :: ops') r (fst t) true false, true) ->
  step strtod pc (mkSt ns ops r k true false) (fst t) (snd t)
  = Ok (Next (mkSt ns' (top :: mkOd (Some f) (inc a) j :: ops') r (fst t) false false)).
Proof.
  intros t ns ops r k ns' top f a j ops' D Pf H. destruct (delimiter_cases t D) as (B & O & C). nospace B.
  rewrite glue_skip_delimiter by auto. cbn [rbind]. unfold step_main.
  unfold opening in O. rewrite (proj1 (not_true_iff_false _) O).
  unfold closing in C. rewrite (proj1 (not_true_iff_false _) C). unfold delimiter in D. rewrite D.
  unfold set_tok. cbn [p_nodes p_ops p_res p_ai p_ap p_tok]. unfold step_delimiter. cbn [p_ai negb]. rewrite H.
  cbn [rbind negb p_ops od_op]. rewrite Pf. reflexivity.
Qed.

(** *** A whole expression *)
Definition keeps (ops : list opdata) (edge : list operator) : Prop :=
  match ops with
  | mkOd (Some top) _ _ :: _ => forall o, In o edge -> ~ goes_left top o
  | _ => True
  end.
Lemma keeps_stops : forall ops edge o, keeps ops edge -> In o edge -> stops (yields o) ops.
Proof.
  intros ops edge o H Hi. unfold keeps, stops in *. destruct ops as [|[[top|] a k] ops]; auto.
  apply yields_false. auto.
Qed.
Lemma keeps_sub : forall ops e e', keeps ops e -> (forall o, In o e' -> In o e) -> keeps ops e'.
Proof. intros ops e e' H Hs. unfold keeps in *. destruct ops as [|[[top|] a k] ops]; auto. Qed.

Lemma pending_pops : forall s o, wfs strtod pc s -> made o -> (o_place o = PInfix \/ o_place o = PPostfix) ->
  (forall x, In x (right_edge s) -> goes_left x o) ->
  forall od, In od (fst (unred s)) -> op_cond (yields o) od.
Proof.
  intros s o W M P H od Hi. destruct (unred_ops s od W Hi) as (x & E & [Hx|[Mx Px]]).
  - exists x. split; auto. apply yields_spec; auto.
  - exists x. split; auto. apply yields_spec. apply pops_function; auto.
Qed.
Lemma pending_all : forall s, wfs strtod pc s -> forall od, In od (fst (unred s)) -> op_cond (fun _ => true) od.
Proof. intros s W od Hi. destruct (unred_ops s od W Hi) as (x & E & _). exists x; auto. Qed.

Lemma first_head : forall s, exists l, flatten s = first s :: l.
Proof.
  induction s using sterm_mut with (P0 := fun _ => True); cbn [flatten first]; try exact I; eauto;
    try (destruct IHs as (l & ->); simpl; eauto); try (destruct IHs1 as (l & ->); simpl; eauto).
Qed.
Lemma first_inner : forall s, wfs strtod pc s -> blank (first s) = false /\ ~ closing (first s) /\ ~ delimiter (first s).
Proof.
  induction s using sterm_mut with (P0 := fun _ => True); try exact I; intros W; cbn in W; cbn [first];
    try (destruct W as ((? & ? & ? & ?) & _); auto; fail); try tauto.
  apply opening_cases. tauto.
Qed.

Lemma run_two : forall a b s x, run s a = Ok (Next x) -> run s (a ++ b) = run x b.
Proof. intros. rewrite run_app, H. reflexivity. Qed.

Definition nf (ops : list opdata) : Prop :=
  match ops with mkOd (Some top) _ _ :: _ => o_place top <> PFunction | _ => True end.
Lemma count_nf : forall ops, nf ops -> count_arg ops = ops.
Proof.
  intros [|[[top|] a k] ops] H; auto. simpl in *.
  destruct (placement_eqb_spec (o_place top) PFunction); [contradiction|reflexivity].
Qed.

Lemma run_expr :
  (forall s, wfs strtod pc s -> correct s -> forall ns ops r k, keeps ops (left_edge s) -> nf ops ->
     exists k', run (mkSt ns ops r k false false) (flatten s)
                = Ok (Next (mkSt (snd (unred s) ++ ns) (fst (unred s) ++ ops) r k' true false)))
  /\ (forall a, wfa strtod pc a -> correct_args a -> forall ns tp f m tf ops r k, o_place f = PFunction ->
     exists k', run (mkSt ns (mkOd None None tp :: mkOd (Some f) (Some m) tf :: ops) r k false false) (flatten_args a)
       = Ok (Next (mkSt (rev (erase_args a) ++ ns) (mkOd (Some f) (Some (m + nargs a)) tf :: ops) r k' true false))).
Proof.
  apply sterm_sargs_ind.
  - intros t v W _ ns ops r k _ _. cbn in W. destruct W as (P & W1 & W2 & W3). cbn [flatten run].
    rewrite (step_const t v) by auto. cbn. eauto.
  - intros t W _ ns ops r k _ _. cbn in W. destruct W as (P & W1 & W2 & W3). cbn [flatten run].
    rewrite (step_var t) by auto. cbn. eauto.
  - intros op t W _ ns ops r k _ _. cbn in W. destruct W as (P & W1 & W2). cbn [flatten run].
    rewrite (step_null t op) by auto. cbn. eauto.
  - (* paren *) intros o s IH c W C ns ops r k K N. cbn in W, C. destruct W as (Wo & W & Wc). cbn [flatten run].
    rewrite step_open by auto. cbn [rbind].
    destruct (IH W C ns (mkOd None None (fst o) :: ops) r (fst o) I I) as (k1 & E1).
    rewrite (run_two _ _ _ _ E1). cbn [run].
    erewrite step_close; [|exact Wc|apply reduce; [exact W|apply pending_all; exact W|exact I]].
    cbn [rbind]. exists (fst c). cbn [unred fst snd app]. rewrite count_nf by auto. reflexivity.
  - (* function *) intros op t o args IH W C ns ops r k K N. cbn in W, C.
    destruct W as (P & W1 & W2 & W3 & W4 & W5). cbn [flatten run].
    rewrite (step_function t op) by auto. cbn [rbind]. rewrite step_open by auto. cbn [rbind].
    destruct (IH W5 C ns (fst o) op 0 (fst t) ops r (fst o)) as (k1 & E1); [eapply named_place; eauto|].
    rewrite E1. exists k1. reflexivity.
  - (* empty *) intros op t o c W C ns ops r k K N. cbn in W. destruct W as (P & W1 & W2 & W3 & W4). cbn [flatten run].
    rewrite (step_function t op) by (auto; congruence). cbn [rbind]. rewrite step_open by auto. cbn [rbind].
    rewrite step_close_empty; auto; [|eapply named_place; eauto]. cbn. eauto.
  - (* prefix *) intros op t s IH W C ns ops r k K N. cbn in W, C. destruct W as (P & W1 & W2 & W3). destruct C as (C1 & C2).
    cbn [flatten run]. rewrite (step_prefix t op) by auto. cbn [rbind].
    destruct (IH W3 C1 ns (mkOd (Some op) (Some 1) (fst t) :: ops) r (fst t)) as (k1 & E1).
    { exact C2. } { simpl. rewrite (named_place _ _ _ W2). discriminate. }
    rewrite E1. exists k1. cbn [unred fst snd]. rewrite <- app_assoc. reflexivity.
  - (* postfix *) intros op s IH t W C ns ops r k K N. cbn in W, C. destruct W as (W & P & W1 & W2). destruct C as (C1 & C2).
    cbn [flatten]. cbn [left_edge] in K.
    destruct (IH W C1 ns ops r k) as (k1 & E1); [eapply keeps_sub; [exact K|simpl; auto]|exact N|].
    rewrite (run_two _ _ _ _ E1). cbn [run].
    erewrite (step_postfix t op); [|auto|auto|auto|apply reduce; [exact W| |]].
    + cbn. eauto.
    + apply pending_pops; auto. { eapply named_made; eauto. } right; eapply named_place; eauto.
    + eapply keeps_stops; [exact K|simpl; auto].
  - (* infix *) intros op l IHl t rr IHr W C ns ops r k K N. cbn in W, C. destruct W as (Wl & P & W1 & Wr).
    destruct C as (C1 & C2 & C3 & C4). cbn [flatten]. cbn [left_edge] in K.
    destruct (IHl Wl C1 ns ops r k) as (k1 & E1); [eapply keeps_sub; [exact K|simpl; auto]|exact N|].
    rewrite (run_two _ _ _ _ E1). cbn [run].
    erewrite (step_infix t op); [|auto|auto|apply reduce; [exact Wl| |]].
    + cbn [rbind]. destruct (IHr Wr C2 (erase l :: ns) (mkOd (Some op) (Some 2) (fst t) :: ops) r (fst t)) as (k2 & E2).
      { exact C4. } { simpl. rewrite (named_place _ _ _ W1). discriminate. }
      rewrite E2. exists k2. cbn [unred fst snd]. rewrite <- !app_assoc. reflexivity.
    + apply pending_pops; auto. { eapply named_made; eauto. } left; eapply named_place; eauto.
    + eapply keeps_stops; [exact K|simpl; auto].
  - (* glue *) intros g l IHl rr IHr W C ns ops r k K N. cbn in W, C. destruct W as (Wg & Wl & Wr & W1 & W2).
    destruct C as (C1 & C2 & C3 & C4). cbn [flatten]. cbn [left_edge] in K.
    destruct (IHl Wl C1 ns ops r k) as (k1 & E1); [eapply keeps_sub; [exact K|simpl; auto]|exact N|].
    rewrite (run_two _ _ _ _ E1). destruct (first_head rr) as (rest & Ef).
    destruct (first_inner rr Wr) as (F1 & F2 & F3).
    destruct (IHr Wr C2 (erase l :: ns) (mkOd (Some g) (Some 2) (fst (first rr)) :: ops) r (fst (first rr))) as (k2 & E2).
    { exact C4. } { simpl. rewrite (proj2 (glue_arity g Wg)). discriminate. }
    rewrite Ef in *. cbn [run] in *.
    erewrite (step_glued g (first rr)); eauto.
    + rewrite E2. exists k2. cbn [unred fst snd]. rewrite <- !app_assoc. reflexivity.
    + apply reduce; auto.
      * destruct U as [_ U2]. destruct (U2 g Wg). apply pending_pops; auto.
      * eapply keeps_stops; [exact K|simpl; auto].
  - (* last argument *) intros s IH c W C ns tp f m tf ops r k Pf. cbn in W, C. destruct W as (W & Wc).
    cbn [flatten_args]. destruct (IH W C ns (mkOd None None tp :: mkOd (Some f) (Some m) tf :: ops) r k I I) as (k1 & E1).
    rewrite (run_two _ _ _ _ E1). cbn [run].
    erewrite step_close; [|exact Wc|apply reduce; [exact W|apply pending_all; exact W|exact I]].
    cbn [rbind]. exists (fst c). cbn [erase_args nargs rev app count_arg inc]. rewrite Pf. cbn [placement_eqb].
    rewrite Nat.add_1_r. reflexivity.
  - (* more arguments *) intros s IH d a IHa W C ns tp f m tf ops r k Pf. cbn in W, C. destruct W as (W & Wd & Wa).
    destruct C as (C1 & C2).
    cbn [flatten_args]. destruct (IH W C1 ns (mkOd None None tp :: mkOd (Some f) (Some m) tf :: ops) r k I I) as (k1 & E1).
    rewrite (run_two _ _ _ _ E1). cbn [run].
    erewrite step_delim; [|exact Wd|exact Pf|apply reduce; [exact W|apply pending_all; exact W|exact I]].
    cbn [rbind inc].
    destruct (IHa Wa C2 (erase s :: ns) tp f (S m) tf ops r (fst d) Pf) as (k2 & E2). rewrite E2.
    exists k2. cbn [erase_args nargs rev]. rewrite <- app_assoc. simpl. rewrite Nat.add_succ_r. reflexivity.
Qed.

Lemma parse_correct : forall s n, wfs strtod pc s -> correct s ->
  conclude (run init_pstate (flatten s)) n = Ok (PTree (erase s)).
Proof.
  intros s n W C. destruct (proj1 run_expr s W C [] [] PERR_SUCCESS 0 I I) as (k & E).
  unfold init_pstate. rewrite E. unfold conclude. cbn [rbind]. unfold finish, set_tok. cbn [p_ap p_ai negb p_nodes p_ops p_res].
  unfold pop_rest. rewrite (reduce s); [reflexivity|exact W|apply pending_all; exact W|exact I].
Qed.
End Run.
