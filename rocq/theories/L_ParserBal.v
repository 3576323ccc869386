(** Proofs about the parser: the balance between operators and operands, for every token list. *)
From Coq Require Import List Ascii String NArith ZArith Bool Lia Arith Permutation.
From Verif Require Import M_Base M_StringUtil M_Tree M_Context M_Tokenizer M_Parser S_Engine S_Parse L_Trie L_Context L_Parser L_ParserSound L_ParserInv.
Import ListNotations.
Open Scope nat_scope.
Open Scope res_scope.

(** Stacks in front of which an operand is expected, with the number of nodes their operators wait for *)
Inductive okrest : list opdata -> nat -> Prop :=
| ok_nil : okrest [] 0
| ok_pre : forall op i ops n, o_place op = PPrefix -> made op -> okrest ops n -> okrest (mkOd (Some op) (Some 1) i :: ops) n
| ok_inf : forall op i ops n, o_place op = PInfix -> made op -> okrest ops n -> okrest (mkOd (Some op) (Some 2) i :: ops) (S n)
| ok_par : forall i ops n, okrest ops n -> okrest (mkOd None None i :: ops) n
| ok_fun : forall i f k j ops n, o_place f = PFunction -> made f -> o_arity f <> Some 0 -> okrest ops n ->
    okrest (mkOd None None i :: mkOd (Some f) (Some k) j :: ops) (k + n).

Definition pend (ops : list opdata) : list (operator * nat) :=
  flat_map (fun od => match od_op od with Some op => [(op, od_tok od)] | None => [] end) ops.
Definition is_par (ops : list opdata) : bool :=
  match ops with od :: _ => match od_op od with None => true | _ => false end | [] => false end.
Fixpoint parens (ops : list opdata) : list bool :=
  match ops with
  | [] => []
  | od :: ops' => match od_op od with Some _ => parens ops' | None => is_par ops' :: parens ops' end
  end.
Definition same (ns : list node) (ops : list opdata) (ns' : list node) (ops' : list opdata) : Prop :=
  flat_map leaves (rev ns') = flat_map leaves (rev ns)
  /\ Permutation (flat_map tree_ops ns' ++ pend ops') (flat_map tree_ops ns ++ pend ops).
Lemma same_refl : forall ns ops, same ns ops ns ops.
Proof. split; auto. Qed.
Lemma same_trans : forall a b c d e f, same a b c d -> same c d e f -> same a b e f.
Proof. intros a b c d e f [A B] [C D]. split; [congruence|]. eapply perm_trans; eauto. Qed.

Lemma flat_map_perm : forall (A B : Type) (f : A -> list B) l l', Permutation l l' -> Permutation (flat_map f l) (flat_map f l').
Proof. intros. apply Permutation_flat_map. auto. Qed.

(** one successful pop *)
Lemma pop_same : forall op k j ns ops t ai ap, o_arity op <> Some 0 -> (o_arity op = None \/ o_arity op = Some k) ->
  k <= List.length ns ->
  exists ns', op_pop_and_insert (mkSt ns (mkOd (Some op) (Some k) j :: ops) PERR_SUCCESS t ai ap)
    = Ok (mkSt ns' ops PERR_SUCCESS t ai ap, true)
  /\ List.length ns' = S (List.length ns - k) /\ same ns (mkOd (Some op) (Some k) j :: ops) ns' ops.
Proof.
  intros op k j ns ops t ai ap H0 Ha Hk. unfold op_pop_and_insert. cbn [p_ops od_op od_arity od_tok p_nodes p_res p_tok p_ai p_ap].
  replace (negb (arity_eqb (o_arity op) None) && negb (arity_eqb (o_arity op) (Some k))) with false
    by (destruct Ha as [->| ->]; rewrite ?arity_refl; simpl; rewrite ?andb_false_r; auto).
  cbn [count_of rbind]. replace (List.length ns <? k) with false by (symmetry; apply Nat.ltb_ge; auto).
  eexists. split; [reflexivity|]. split; [simpl; rewrite skipn_length; auto|].
  assert (Z : arity_eqb (o_arity op) (Some 0) = false) by (destruct (arity_eqb_spec (o_arity op) (Some 0)); congruence).
  split.
  - simpl. rewrite flat_map_app. simpl. rewrite Z, app_nil_r.
    rewrite <- flat_map_app, <- rev_app_distr, firstn_skipn. auto.
  - simpl. rewrite Z. simpl.
    apply Permutation_cons_app. rewrite <- app_assoc.
    rewrite <- (firstn_skipn k ns) at 3. rewrite flat_map_app, <- app_assoc.
    apply Permutation_app_tail. apply flat_map_perm. symmetry. apply Permutation_rev.
Qed.

Lemma pops : forall cond ops n, okrest ops n -> forall ns e t ai ap, List.length ns = e + n ->
  (exists ns' ops' n', pop_all_while cond (mkSt ns ops PERR_SUCCESS t ai ap) = Ok (mkSt ns' ops' PERR_SUCCESS t ai ap, true)
     /\ okrest ops' n' /\ List.length ns' = e + n' /\ parens ops' = parens ops /\ same ns ops ns' ops' /\ stops cond ops')
  \/ (e = 0 /\ exists x, pop_all_while cond (mkSt ns ops PERR_SUCCESS t ai ap) = Ok (x, false)).
Proof.
  intros cond. 
  assert (Stop : forall ops n ns e t ai ap, okrest ops n -> List.length ns = e + n -> stops cond ops ->
    exists ns' ops' n', pop_all_while cond (mkSt ns ops PERR_SUCCESS t ai ap) = Ok (mkSt ns' ops' PERR_SUCCESS t ai ap, true)
     /\ okrest ops' n' /\ List.length ns' = e + n' /\ parens ops' = parens ops /\ same ns ops ns' ops' /\ stops cond ops').
  { intros ops n ns e t ai ap Ok_ Hl Hs. exists ns, ops, n. repeat split; auto. apply pop_stops.
    unfold stops in Hs. simpl. destruct ops as [|[[o|] a j] ops]; auto. }
  assert (Go : forall op k i ops n, okrest ops n -> o_arity op <> Some 0 -> (o_arity op = None \/ o_arity op = Some k) ->
    okrest (mkOd (Some op) (Some k) i :: ops) (k - 1 + n) -> k >= 1 ->
    (forall ns e t ai ap, List.length ns = e + n ->
      (exists ns' ops' n', pop_all_while cond (mkSt ns ops PERR_SUCCESS t ai ap) = Ok (mkSt ns' ops' PERR_SUCCESS t ai ap, true)
       /\ okrest ops' n' /\ List.length ns' = e + n' /\ parens ops' = parens ops /\ same ns ops ns' ops' /\ stops cond ops')
      \/ (e = 0 /\ exists x, pop_all_while cond (mkSt ns ops PERR_SUCCESS t ai ap) = Ok (x, false))) ->
    forall ns e t ai ap, List.length ns = e + (k - 1 + n) ->
      (exists ns' ops' n', pop_all_while cond (mkSt ns (mkOd (Some op) (Some k) i :: ops) PERR_SUCCESS t ai ap) = Ok (mkSt ns' ops' PERR_SUCCESS t ai ap, true)
       /\ okrest ops' n' /\ List.length ns' = e + n' /\ parens ops' = parens (mkOd (Some op) (Some k) i :: ops) /\ same ns (mkOd (Some op) (Some k) i :: ops) ns' ops' /\ stops cond ops')
      \/ (e = 0 /\ exists x, pop_all_while cond (mkSt ns (mkOd (Some op) (Some k) i :: ops) PERR_SUCCESS t ai ap) = Ok (x, false))).
  { intros op k i ops n Ho H0 Ha Hw Hk IH ns e t ai ap Hl.
    destruct (cond op) eqn:Ec; [|left; eapply Stop; eauto; simpl; rewrite Ec; reflexivity].
    destruct (le_lt_dec k (List.length ns)) as [L|L].
    - destruct (pop_same op k i ns ops t ai ap H0 Ha L) as (ns1 & E1 & L1 & S1).
      destruct (IH ns1 e t ai ap ltac:(lia)) as [(ns' & ops' & n' & E & A & B & C & D & F)|(He & x & E)].
      + left. exists ns', ops', n'. rewrite pop_unfold. cbn [p_ops od_op]. rewrite Ec, E1. cbn [rbind].
        conjs; auto. eapply same_trans; eauto.
      + right. split; auto. exists x. rewrite pop_unfold. cbn [p_ops od_op]. rewrite Ec, E1. cbn [rbind]. auto.
    - right. split; [lia|]. eexists. rewrite pop_unfold. cbn [p_ops od_op]. rewrite Ec.
      unfold op_pop_and_insert. cbn [p_ops od_op od_arity od_tok p_nodes p_res p_tok p_ai p_ap].
      replace (negb (arity_eqb (o_arity op) None) && negb (arity_eqb (o_arity op) (Some k))) with false
        by (destruct Ha as [->| ->]; rewrite ?arity_refl; simpl; rewrite ?andb_false_r; auto).
      cbn [count_of rbind]. replace (List.length ns <? k) with true by (symmetry; apply Nat.ltb_lt; auto).
      reflexivity. }
  intros ops n H. induction H as [|op i ops n P M Ho IH|op i ops n P M Ho IH|i ops n Ho IH|i f k j ops n P M Hz Ho IH]; intros ns e t ai ap Hl.
  - left. eapply Stop; eauto; [constructor|exact I].
  - unfold made in M. rewrite P in M.
    apply (Go op 1 i ops n Ho); try (rewrite M; auto; congruence); auto.
    simpl. constructor; auto. unfold made. rewrite P. auto.
  - pose proof M as M'. unfold made in M. rewrite P in M. destruct M as [M _].
    apply (Go op 2 i ops n Ho); try (rewrite M; auto; congruence); auto.
    simpl. constructor; auto.
  - left. eapply Stop; eauto; [constructor; auto|exact I].
  - left. eapply (Stop _ (k + n)); eauto; [apply ok_fun; auto|exact I].
Qed.

(** Behind an operand: the operand may be a call whose node is not built yet. *)
Definition behind_ok (ops : list opdata) (ns : list node) : Prop :=
  (exists n, okrest ops n /\ List.length ns = S n)
  \/ (exists f k j rest n, ops = mkOd (Some f) (Some k) j :: rest /\ o_place f = PFunction /\ made f /\ o_arity f <> Some 0
        /\ okrest rest n /\ List.length ns = k + n).

Lemma pops_behind : forall cond ops ns t ap, all_functions cond -> behind_ok ops ns ->
  (exists ns' ops' n', pop_all_while cond (mkSt ns ops PERR_SUCCESS t true ap) = Ok (mkSt ns' ops' PERR_SUCCESS t true ap, true)
     /\ okrest ops' n' /\ List.length ns' = S n' /\ parens ops' = parens ops /\ same ns ops ns' ops' /\ stops cond ops')
  \/ (exists x, pop_all_while cond (mkSt ns ops PERR_SUCCESS t true ap) = Ok (x, false) /\ p_res x <> PERR_SUCCESS).
Proof.
  intros cond ops ns t ap F [(n & Ho & Hl)|(f & k & j & rest & n & -> & P & M & Hz & Ho & Hl)].
  - destruct (pops cond ops n Ho ns 1 t true ap Hl) as [H|(H & _)]; [left; auto|discriminate].
  - rewrite pop_unfold. cbn [p_ops od_op]. rewrite (F f) by auto.
    destruct (arity_eqb (o_arity f) None) eqn:E1; [|destruct (arity_eqb (o_arity f) (Some k)) eqn:E2].
    1,2: destruct (pop_same f k j ns rest t true ap Hz) as (ns1 & E & L1 & S1);
      [destruct (arity_eqb_spec (o_arity f) None), (arity_eqb_spec (o_arity f) (Some k)); auto; discriminate|lia|];
      rewrite E; cbn [rbind];
      destruct (pops cond rest n Ho ns1 1 t true ap ltac:(lia)) as [(ns' & ops' & n' & E' & A & B & C & D & G)|(H & _)]; [|discriminate];
      left; exists ns', ops', n'; conjs; auto; eapply same_trans; eauto.
    right. unfold op_pop_and_insert. cbn [p_ops od_op od_arity od_tok p_nodes p_res p_tok p_ai p_ap]. rewrite E1, E2. simpl.
    eexists. split; [reflexivity|]. simpl. discriminate.
Qed.

Section Bal.
Variable strtod : cstr -> option double.
Variable pc : pctx.
Hypothesis U : usual pc.
Notation step := (step strtod pc).
Notation run := (run strtod pc).

Definition content (R : list role) (ns : list node) (ops : list opdata) : Prop :=
  flat_map leaves (rev ns) = operands R /\ Permutation (flat_map tree_ops ns ++ pend ops) (operators R).
Lemma content_same : forall R ns ops ns' ops', content R ns ops -> same ns ops ns' ops' -> content R ns' ops'.
Proof. intros R ns ops ns' ops' [A B] [C D]. split; [congruence|]. eapply perm_trans; eauto. Qed.

(** The state after some tokens with roles [R] *)
Inductive bal : pstate -> list role -> list bool -> bool -> Prop :=
| bal_front : forall ns ops k n R, okrest ops n -> List.length ns = n -> content R ns ops ->
    bal (mkSt ns ops PERR_SUCCESS k false false) R (parens ops) (is_par ops)
| bal_wait : forall ns f j ops k n R, o_place f = PFunction -> made f -> o_arity f <> Some 0 -> okrest ops n -> List.length ns = n ->
    content R ns (mkOd (Some f) (Some 0) j :: ops) ->
    bal (mkSt ns (mkOd (Some f) (Some 0) j :: ops) PERR_SUCCESS k false true) R (parens ops) false
| bal_behind : forall ns ops k R, behind_ok ops ns -> content R ns ops ->
    bal (mkSt ns ops PERR_SUCCESS k true false) R (parens ops) false.

(** roles of one token *)
Definition role1 (behind : bool) (t : tk) : list role * bool :=
  if is_opening_parenthesis (snd t) then ((if behind then glue_role pc t else []), false)
  else if is_closing_parenthesis (snd t) then ([], true)
  else if is_delimiter (snd t) then ([], false)
  else if behind then
    match pc_lookup pc PInfix (snd t) with
    | Some op => ([ROperator op (fst t)], false)
    | None =>
      match pc_lookup pc PPostfix (snd t) with
      | Some op => ([ROperator op (fst t)], true)
      | None => (glue_role pc t ++ [fst (operand_role strtod pc t)], snd (operand_role strtod pc t))
      end
    end
  else ([fst (operand_role strtod pc t)], snd (operand_role strtod pc t)).
Lemma roles_cons : forall b t ts, roles strtod pc b (t :: ts) = fst (role1 b t) ++ roles strtod pc (snd (role1 b t)) ts.
Proof.
  intros. simpl. unfold role1. destruct (is_opening_parenthesis _); auto. destruct (is_closing_parenthesis _); auto.
  destruct (is_delimiter _); auto. destruct b; auto. destruct (pc_lookup pc PInfix _); auto.
  destruct (pc_lookup pc PPostfix _); auto. simpl. rewrite <- app_assoc. auto.
Qed.
Definition open1 (opened : list bool) (prev : bool) (t : tk) : list bool * bool :=
  if is_opening_parenthesis (snd t) then (prev :: opened, true)
  else if is_closing_parenthesis (snd t) then (tl opened, false)
  else if is_delimiter (snd t) then (opened, true)
  else (opened, false).

Lemma operands_app : forall a b, operands (a ++ b) = operands a ++ operands b.
Proof. intros. apply flat_map_app. Qed.
Lemma operators_app : forall a b, operators (a ++ b) = operators a ++ operators b.
Proof. intros. apply flat_map_app. Qed.
Lemma content_leaf : forall R ns ops n, content R ns ops -> leaves n = [n] -> tree_ops n = [] ->
  content (R ++ [ROperand n]) (n :: ns) ops.
Proof.
  intros R ns ops n [A B] H1 H2. split.
  - simpl. rewrite flat_map_app, operands_app, A. simpl. rewrite H1. auto.
  - simpl. rewrite H2, operators_app. simpl. rewrite app_nil_r. auto.
Qed.
Lemma content_op : forall R ns ops op a i, content R ns ops -> content (R ++ [ROperator op i]) ns (mkOd (Some op) a i :: ops).
Proof.
  intros R ns ops op a i [A B]. split.
  - rewrite operands_app. simpl. rewrite app_nil_r. auto.
  - rewrite operators_app. simpl. rewrite <- Permutation_middle, <- Permutation_cons_append. constructor. auto.
Qed.
Lemma content_arity : forall R ns ops o a b i, content R ns (mkOd o a i :: ops) -> content R ns (mkOd o b i :: ops).
Proof. intros. auto. Qed.
Lemma content_par : forall R ns ops a i, content R ns ops -> content R ns (mkOd None a i :: ops).
Proof. intros. auto. Qed.
Lemma content_unpar : forall R ns ops a i, content R ns (mkOd None a i :: ops) -> content R ns ops.
Proof. intros. auto. Qed.
Lemma content_nil : forall R ns ops, content R ns ops -> content (R ++ []) ns ops.
Proof. intros. rewrite app_nil_r. auto. Qed.

Definition moved (r : res ctl) (R : list role) (b : bool) (opened : list bool) (prev : bool) : Prop :=
  (exists s', r = Ok (Next s') /\ bal s' R opened prev /\ (p_ai s' = b))
  \/ (exists s', r = Ok (Exit s') /\ p_res s' <> PERR_SUCCESS).

Lemma made_fun_arity : forall t f, named pc PFunction t f -> o_place f = PFunction /\ made f.
Proof. intros t f H. apply U in H. auto. Qed.

(** an operand position, the token is not a parenthesis or delimiter *)
Lemma b_operand : forall ns ops k n R t, okrest ops n -> List.length ns = n -> content R ns ops -> plain t ->
  moved (step (mkSt ns ops PERR_SUCCESS k false false) (fst t) (snd t))
    (R ++ [fst (operand_role strtod pc t)]) (snd (operand_role strtod pc t)) (parens ops) false.
Proof.
  intros ns ops k n R t Ho Hl Hc P. unfold operand_role.
  destruct (pc_lookup pc PFunction (snd t)) as [f|] eqn:Ef.
  - destruct (made_fun_arity t f Ef) as [Pf Mf].
    destruct (arity_eqb_spec (o_arity f) (Some 0)) as [E0|E0].
    + left. eexists. split; [apply (step_null strtod pc U t f); auto|]. split; [|reflexivity]. simpl.
      constructor. { left. exists n. split; auto. simpl. auto. }
      apply content_leaf; auto; simpl; rewrite E0; auto.
    + left. eexists. split; [apply (step_function strtod pc U t f); auto|]. split; [|reflexivity]. simpl.
      eapply bal_wait; eauto. apply content_op; auto.
  - destruct (pc_lookup pc PPrefix (snd t)) as [o|] eqn:Ep.
    + left. eexists. split; [apply (step_prefix strtod pc U t o); auto|]. split; [|reflexivity]. simpl.
      destruct (proj1 U _ _ _ Ep) as [Po Mo].
      assert (W : okrest (mkOd (Some o) (Some 1) (fst t) :: ops) n) by (constructor; auto).
      pose proof (bal_front ns _ (fst t) n (R ++ [ROperator o (fst t)]) W Hl (content_op _ _ _ _ _ _ Hc)) as B. simpl in B. auto.
    + destruct (strtod (snd t)) as [v|] eqn:Es.
      * left. eexists. split; [apply step_const; eauto|]. split; [|reflexivity].
        constructor. { left. exists n. split; auto. simpl. auto. } apply content_leaf; auto.
      * simpl. destruct (pc_lookup pc PInfix (snd t)) as [o1|] eqn:Ei.
        { right. eexists. split.
          - destruct (plain_inv t P) as (B & _). unfold M_Parser.step. unfold blank in B. rewrite B.
            rewrite glue_skip by reflexivity. cbn [rbind]. rewrite main_plain by auto.
            unfold step_operator. cbn [set_tok p_ai negb]. rewrite Ef, Ep. unfold step_leaf, has. rewrite Es, Ei. simpl. reflexivity.
          - simpl. discriminate. }
        destruct (pc_lookup pc PPostfix (snd t)) as [o2|] eqn:Eq.
        { right. eexists. split.
          - destruct (plain_inv t P) as (B & _). unfold M_Parser.step. unfold blank in B. rewrite B.
            rewrite glue_skip by reflexivity. cbn [rbind]. rewrite main_plain by auto.
            unfold step_operator. cbn [set_tok p_ai negb]. rewrite Ef, Ep. unfold step_leaf, has. rewrite Es, Ei, Eq. simpl. reflexivity.
          - simpl. discriminate. }
        destruct (is_letter (hd NUL (snd t))) eqn:El.
        { left. eexists. split; [apply step_var; auto; intros []; auto|]. split; [|reflexivity].
          constructor. { left. exists n. split; auto. simpl. auto. } apply content_leaf; auto. }
        { right. eexists. split.
          - destruct (plain_inv t P) as (B & _). unfold M_Parser.step. unfold blank in B. rewrite B.
            rewrite glue_skip by reflexivity. cbn [rbind]. rewrite main_plain by auto.
            unfold step_operator. cbn [set_tok p_ai negb]. rewrite Ef, Ep. unfold step_leaf, has. rewrite Es, Ei, Eq, El. simpl. reflexivity.
          - simpl. discriminate. }
Qed.

Lemma b_open : forall s R opened prev t, bal s R opened prev -> p_ai s = false -> opening t ->
  moved (step s (fst t) (snd t)) R false (prev :: opened) true.
Proof.
  intros s R opened prev t H Ha O. destruct H as [ns ops k n R Ho Hl Hc|ns f j ops k n R Pf Mf Hz Ho Hl Hc|]; [| |discriminate].
  - left. eexists. split; [apply step_open; auto|]. split; [|reflexivity].
    assert (W : okrest (mkOd None None (fst t) :: ops) n) by (constructor; auto).
    pose proof (bal_front ns _ (fst t) n R W Hl (content_par _ _ _ _ _ Hc)) as B. simpl in B. auto.
  - left. eexists. split; [apply step_open; auto|]. split; [|reflexivity].
    assert (W : okrest (mkOd None None (fst t) :: mkOd (Some f) (Some 0) j :: ops) n) by (apply (ok_fun _ f 0); auto).
    pose proof (bal_front ns _ (fst t) n R W Hl (content_par _ _ _ _ _ Hc)) as B. simpl in B. auto.
Qed.

(** a failing pop in front of an infix or postfix operator leaves an error code *)
Lemma push_fail : forall o ns ops k x, o_place o = PInfix \/ o_place o = PPostfix ->
  pop_all_while (yields o) (mkSt ns ops PERR_SUCCESS k true false) = Ok (x, false) ->
  push_operator (mkSt ns ops PERR_SUCCESS k true false) o = Ok (x, false).
Proof. intros o ns ops k x [P|P] E; unfold push_operator; rewrite P; unfold op_push; cbn [od_op]; rewrite P, E; reflexivity. Qed.

Lemma b_infix : forall ns ops k R t o, behind_ok ops ns -> content R ns ops -> plain t -> named pc PInfix t o ->
  moved (step (mkSt ns ops PERR_SUCCESS k true false) (fst t) (snd t)) (R ++ [ROperator o (fst t)]) false (parens ops) false.
Proof.
  intros ns ops k R t o H Hc P N.
  destruct (proj1 U _ _ _ N) as [Po Mo].
  destruct (pops_behind (yields o) ops ns (fst t) false (all_functions_yields o Mo (or_introl Po)) H)
    as [(ns' & ops' & n' & E & A & B & C & D & G)|(x & E & X)].
  - left. eexists. split; [eapply (step_infix strtod pc U); eauto|]. split; [|reflexivity].
    assert (W : okrest (mkOd (Some o) (Some 2) (fst t) :: ops') (S n')) by (constructor; auto).
    pose proof (bal_front ns' _ (fst t) (S n') (R ++ [ROperator o (fst t)]) W B (content_op _ _ _ _ _ _ (content_same _ _ _ _ _ Hc D))) as Bf.
    simpl in Bf. rewrite C in Bf. auto.
  - right. exists x. split; auto. destruct (plain_inv t P) as (Bl & _). unfold M_Parser.step. unfold blank in Bl. rewrite Bl.
    rewrite (glue_skip_infix pc _ _ o) by auto. cbn [rbind]. rewrite main_plain by auto.
    unfold step_operator. cbn [set_tok p_ai negb]. rewrite N. unfold set_tok. cbn [p_nodes p_ops p_res p_ai p_ap].
    rewrite (push_fail o _ _ _ x) by auto. reflexivity.
Qed.

Lemma b_postfix : forall ns ops k R t o, behind_ok ops ns -> content R ns ops -> plain t -> no_name pc PInfix t -> named pc PPostfix t o ->
  moved (step (mkSt ns ops PERR_SUCCESS k true false) (fst t) (snd t)) (R ++ [ROperator o (fst t)]) true (parens ops) false.
Proof.
  intros ns ops k R t o H Hc P N0 N.
  destruct (proj1 U _ _ _ N) as [Po Mo].
  destruct (pops_behind (yields o) ops ns (fst t) false (all_functions_yields o Mo (or_intror Po)) H)
    as [(ns' & ops' & n' & E & A & B & C & D & G)|(x & E & X)].
  - left. destruct ns' as [|nd ns']; [discriminate|].
    eexists. split; [eapply (step_postfix strtod pc U); eauto|]. split; [|reflexivity].
    pose proof (content_op _ _ _ o (Some 1) (fst t) (content_same _ _ _ _ _ Hc D)) as Cc.
    pose proof (postfix_arity pc U t o N) as Ar.
    destruct (pop_same o 1 (fst t) (nd :: ns') ops' (fst t) true false) as (ns2 & E2 & L2 & S2); try (rewrite Ar; auto; congruence); [simpl; lia|].
    unfold op_pop_and_insert in E2. cbn [p_ops od_op od_arity od_tok p_nodes p_res p_tok p_ai p_ap] in E2. rewrite Ar in E2. simpl in E2.
    inversion E2; subst ns2. rewrite <- C. constructor.
    + left. exists n'. split; auto.
    + eapply content_same; eauto.
  - right. exists x. split; auto. destruct (plain_inv t P) as (Bl & _). unfold M_Parser.step. unfold blank in Bl. rewrite Bl.
    rewrite (glue_skip_postfix pc _ _ o) by auto. cbn [rbind]. rewrite main_plain by auto.
    unfold step_operator. cbn [set_tok p_ai negb]. rewrite N0, N. unfold set_tok. cbn [p_nodes p_ops p_res p_ai p_ap].
    rewrite (push_fail o _ _ _ x) by auto. reflexivity.
Qed.

Lemma glue_step : forall ns ops k R t g, behind_ok ops ns -> content R ns ops -> pc_glue pc = Some g ->
  blank t = false -> ~ closing t -> ~ delimiter t -> no_name pc PInfix t -> no_name pc PPostfix t ->
  (exists ns' ops' n', step (mkSt ns ops PERR_SUCCESS k true false) (fst t) (snd t)
     = step (mkSt ns' ops' PERR_SUCCESS (fst t) false false) (fst t) (snd t)
   /\ okrest ops' n' /\ List.length ns' = n' /\ content (R ++ [ROperator g (fst t)]) ns' ops' /\ parens ops' = parens ops /\ is_par ops' = false)
  \/ (exists s', step (mkSt ns ops PERR_SUCCESS k true false) (fst t) (snd t) = Ok (Exit s') /\ p_res s' <> PERR_SUCCESS).
Proof.
  intros ns ops k R t g H Hc Hg Bl C D N1 N2.
  destruct (proj2 U _ Hg) as [Pg Mg].
  destruct (pops_behind (yields g) ops ns (fst t) false (all_functions_yields g Mg (or_introl Pg)) H)
    as [(ns' & ops' & n' & E & A & B & Cp & Ds & G)|(x & E & X)].
  - left. do 3 eexists. split; [eapply (step_glued strtod pc U); eauto|]. conjs.
    + apply ok_inf; eauto.
    + eauto.
    + apply content_op. eapply content_same; eauto.
    + simpl. auto.
    + reflexivity.
  - right. exists x. split; auto. unfold M_Parser.step. unfold blank in Bl. rewrite Bl.
    unfold step_glue. rewrite Hg. unfold closing, delimiter in *. unfold has. rewrite N1, N2.
    rewrite (proj1 (not_true_iff_false _) C), (proj1 (not_true_iff_false _) D). cbn [set_tok p_ai negb andb].
    unfold set_tok. cbn [p_nodes p_ops p_res p_ai p_ap p_tok]. rewrite (push_fail g _ _ _ x) by auto. reflexivity.
Qed.

Lemma no_glue : forall s t, pc_glue pc = None -> step_glue pc s t = Ok (Next s).
Proof. intros s t H. unfold step_glue. rewrite H. auto. Qed.

Lemma b_behind : forall ns ops k R t, behind_ok ops ns -> content R ns ops -> blank t = false -> ~ closing t -> ~ delimiter t ->
  moved (step (mkSt ns ops PERR_SUCCESS k true false) (fst t) (snd t)) (R ++ fst (role1 true t)) (snd (role1 true t))
    (fst (open1 (parens ops) false t)) (snd (open1 (parens ops) false t)).
Proof.
  intros ns ops k R t H Hc Bl C D. unfold role1, open1.
  pose proof (proj1 (not_true_iff_false _) C) as C'. pose proof (proj1 (not_true_iff_false _) D) as D'.
  destruct (is_opening_parenthesis (snd t)) eqn:Eo.
  - (* ( behind an operand *)
    destruct (pc_lookup pc PInfix (snd t)) as [o1|] eqn:E1; [|destruct (pc_lookup pc PPostfix (snd t)) as [o2|] eqn:E2].
    { right. eexists. split; [unfold M_Parser.step; unfold blank in Bl; rewrite Bl; rewrite (glue_skip_infix pc _ _ o1) by auto; cbn [rbind];
        unfold step_main; rewrite Eo; reflexivity | simpl; discriminate]. }
    { right. eexists. split; [unfold M_Parser.step; unfold blank in Bl; rewrite Bl; rewrite (glue_skip_postfix pc _ _ o2) by auto; cbn [rbind];
        unfold step_main; rewrite Eo; reflexivity | simpl; discriminate]. }
    destruct (pc_glue pc) as [g|] eqn:Eg.
    + destruct (glue_step ns ops k R t g H Hc Eg Bl C D E1 E2) as [(ns' & ops' & n' & E & A & B & Cc & F & G)|(s' & E & X)].
      * unfold moved. rewrite E. unfold glue_role. rewrite Eg.
        pose proof (b_open (mkSt ns' ops' PERR_SUCCESS (fst t) false false) (R ++ [ROperator g (fst t)]) (parens ops') (is_par ops') t) as Bo.
        assert (Bf : bal (mkSt ns' ops' PERR_SUCCESS (fst t) false false) (R ++ [ROperator g (fst t)]) (parens ops') (is_par ops')) by (econstructor; eauto).
        specialize (Bo Bf eq_refl Eo). rewrite F, G in Bo. exact Bo.
      * right. exists s'. auto.
    + right. eexists. split.
      * unfold M_Parser.step. unfold blank in Bl. rewrite Bl. rewrite no_glue by auto. cbn [rbind]. unfold step_main. rewrite Eo. reflexivity.
      * simpl. discriminate.
  - unfold closing, delimiter in *. rewrite C', D'.
    assert (P : plain t) by (split; [auto|split; [|split]]; unfold opening, closing, delimiter; congruence).
    destruct (pc_lookup pc PInfix (snd t)) as [o1|] eqn:E1; [eapply b_infix; eauto|].
    destruct (pc_lookup pc PPostfix (snd t)) as [o2|] eqn:E2; [eapply b_postfix; eauto|].
    cbn [fst snd].
    destruct (pc_glue pc) as [g|] eqn:Eg.
    + destruct (glue_step ns ops k R t g H Hc Eg Bl C D E1 E2) as [(ns' & ops' & n' & E & A & B & Cc & F & G)|(s' & E & X)].
      * unfold moved. rewrite E. unfold glue_role. rewrite Eg. rewrite app_assoc. rewrite <- F. eapply b_operand; eauto.
      * right. exists s'. auto.
    + right. eexists. split.
      * unfold M_Parser.step. unfold blank in Bl. rewrite Bl. rewrite no_glue by auto. cbn [rbind]. rewrite main_plain by auto.
        unfold step_operator. cbn [set_tok p_ai negb]. rewrite E1, E2. reflexivity.
      * simpl. discriminate.
Qed.

Lemma all_true : all_functions (fun _ => true).
Proof. intros f. auto. Qed.

Lemma close_main : forall s t, closing t -> p_ap s = false ->
  step s (fst t) (snd t) = step_closing (set_tok s (fst t)) (fst t).
Proof.
  intros s t C Ha. destruct (closing_cases t C) as (B & O & _). unfold M_Parser.step. unfold blank in B. rewrite B.
  rewrite glue_skip_closing by auto. cbn [rbind]. unfold step_main.
  unfold opening in O. rewrite (proj1 (not_true_iff_false _) O). unfold closing in C. rewrite C. simpl. rewrite Ha. reflexivity.
Qed.

Lemma b_close : forall s R opened prev t, bal s R opened prev -> closing t ->
  moved (step s (fst t) (snd t)) R true (tl opened) false.
Proof.
  intros s R opened prev t H C. destruct H as [ns ops k n R Ho Hl Hc|ns f j ops k n R Pf Mf Hz Ho Hl Hc|ns ops k R H Hc].
  - (* in operand position: only the empty argument list of a function is accepted *)
    rewrite close_main by auto. unfold step_closing, set_tok. cbn [p_nodes p_ops p_res p_ai p_ap p_tok].
    destruct (pops (fun _ => true) ops n Ho ns 0 (fst t) false false Hl) as [(ns' & ops' & n' & E & A & B & Cp & D & G)|(_ & x & E)];
      rewrite E; cbn [rbind negb p_ops].
    + rewrite <- Cp. destruct A as [|op i ops' n' P M A|op i ops' n' P M A|i ops' n' A|i f k' j ops' n' P M Hz A]; try discriminate G.
      * right. eexists. split; [reflexivity|]. simpl. discriminate.
      * right. unfold op_pop_and_insert. cbn [p_ops od_op rbind p_nodes p_res p_tok p_ai p_ap].
        destruct A as [|op' i' ops'' n'' P' M' A'|op' i' ops'' n'' P' M' A'|i' ops'' n'' A'|i' f' k'' j' ops'' n'' P' M' Hz' A'];
          cbn [od_op od_arity]; try rewrite P'; simpl; (eexists; split; [reflexivity|simpl; discriminate]).
      * unfold op_pop_and_insert. cbn [p_ops od_op rbind p_nodes p_res p_tok p_ai p_ap od_arity]. rewrite P.
        destruct k'; simpl.
        -- left. eexists. split; [reflexivity|]. split; [|reflexivity].
           apply (bal_behind ns' (mkOd (Some f) (Some 0) j :: ops')).
           ++ right. exists f, 0, j, ops', n'. conjs; auto.
           ++ apply (content_unpar _ _ _ None i). eapply content_same; eauto.
        -- right. eexists. split; [reflexivity|]. simpl. discriminate.
    + right. eexists. split; [reflexivity|]. simpl. discriminate.
  - right. destruct (closing_cases t C) as (B & O & _). eexists. split.
    + unfold M_Parser.step. unfold blank in B. rewrite B. rewrite glue_skip_closing by auto. cbn [rbind]. unfold step_main.
      unfold opening in O. rewrite (proj1 (not_true_iff_false _) O). reflexivity.
    + simpl. discriminate.
  - rewrite close_main by auto. unfold step_closing, set_tok. cbn [p_nodes p_ops p_res p_ai p_ap p_tok].
    destruct (pops_behind (fun _ => true) ops ns (fst t) false all_true H) as [(ns' & ops' & n' & E & A & B & Cp & D & G)|(x & E & X)];
      rewrite E; cbn [rbind negb p_ops].
    + rewrite <- Cp. destruct A as [|op i ops' n' P M A|op i ops' n' P M A|i ops' n' A|i f k' j ops' n' P M Hz A]; try discriminate G.
      * right. eexists. split; [reflexivity|]. simpl. discriminate.
      * unfold op_pop_and_insert. cbn [p_ops od_op rbind p_nodes p_res p_tok p_ai p_ap parens tl].
        left.
        assert (Bb : bal (mkSt ns' ops' PERR_SUCCESS (fst t) true false) R (parens ops') false).
        { constructor; [left; exists n'; auto|]. apply (content_unpar _ _ _ None i). eapply content_same; eauto. }
        inversion A; subst; cbn [od_op od_arity]; try rewrite H0; eexists; (split; [reflexivity|split; [exact Bb|reflexivity]]).
      * unfold op_pop_and_insert. cbn [p_ops od_op rbind p_nodes p_res p_tok p_ai p_ap od_arity]. rewrite P. simpl.
        left. eexists. split; [reflexivity|]. split; [|reflexivity].
        apply (bal_behind ns' (mkOd (Some f) (Some (S k')) j :: ops')).
        -- right. exists f, (S k'), j, ops', n'. conjs; auto.
        -- apply (content_arity _ _ _ _ (Some k')). apply (content_unpar _ _ _ None i). eapply content_same; eauto.
    + right. eexists. split; [reflexivity|]. simpl. discriminate.
Qed.

Lemma b_delim : forall s R opened prev t, bal s R opened prev -> delimiter t ->
  moved (step s (fst t) (snd t)) R false opened true
  \/ (step s (fst t) (snd t) = Ub /\ hd false opened = true).
Proof.
  intros s R opened prev t H D. destruct (delimiter_cases t D) as (Bl & O & C).
  unfold M_Parser.step. unfold blank in Bl. rewrite Bl. rewrite glue_skip_delimiter by auto. cbn [rbind]. unfold step_main.
  unfold opening in O. rewrite (proj1 (not_true_iff_false _) O).
  unfold closing in C. rewrite (proj1 (not_true_iff_false _) C). unfold delimiter in D. rewrite D.
  destruct H as [ns ops k n R Ho Hl Hc|ns f j ops k n R Pf Mf Hz Ho Hl Hc|ns ops k R H Hc].
  - left. right. eexists. split; [reflexivity|]. simpl. discriminate.
  - left. right. eexists. split; [reflexivity|]. simpl. discriminate.
  - cbn [set_tok p_ap]. unfold step_delimiter, set_tok. cbn [p_nodes p_ops p_res p_ai p_ap p_tok negb].
    destruct (pops_behind (fun _ => true) ops ns (fst t) false all_true H) as [(ns' & ops' & n' & E & A & B & Cp & Ds & G)|(x & E & X)];
      rewrite E; cbn [rbind negb p_ops].
    + rewrite <- Cp. destruct A as [|op i ops' n' P M A|op i ops' n' P M A|i ops' n' A|i f k' j ops' n' P M Hz A]; try discriminate G.
      * left. right. eexists. split; [reflexivity|]. simpl. discriminate.
      * destruct A as [|op' i' ops'' n'' P' M' A'|op' i' ops'' n'' P' M' A'|i' ops'' n'' A'|i' f' k'' j' ops'' n'' P' M' Hz' A'];
          cbn [od_op od_arity]; try rewrite P'; simpl;
          try (left; right; eexists; split; [reflexivity|simpl; discriminate]);
          right; auto.
      * cbn [od_op]. rewrite P. simpl. left. left. eexists. split; [reflexivity|]. split; [|reflexivity].
        assert (W : okrest (mkOd None None i :: mkOd (Some f) (Some (S k')) j :: ops') (S k' + n')) by (apply ok_fun; auto).
        apply (bal_front ns' _ (fst t) (S k' + n') R W B).
        pose proof (content_same _ _ _ _ _ Hc Ds) as Hc'. exact Hc'.
    + left. right. eexists. split; [reflexivity|]. auto.
Qed.

Lemma b_step : forall s R opened prev t, bal s R opened prev -> blank t = false ->
  moved (step s (fst t) (snd t)) (R ++ fst (role1 (p_ai s) t)) (snd (role1 (p_ai s) t))
    (fst (open1 opened prev t)) (snd (open1 opened prev t))
  \/ (step s (fst t) (snd t) = Ub /\ delimiter t /\ hd false opened = true).
Proof.
  intros s R opened prev t H Bl.
  destruct (is_closing_parenthesis (snd t)) eqn:Ec.
  { left. destruct (closing_cases t Ec) as (_ & O & _). unfold opening in O.
    unfold role1, open1. rewrite (proj1 (not_true_iff_false _) O), Ec. simpl. rewrite app_nil_r. eapply b_close; eauto. }
  destruct (is_delimiter (snd t)) eqn:Ed.
  { destruct (delimiter_cases t Ed) as (_ & O & C). unfold opening, closing in *.
    unfold role1, open1. rewrite (proj1 (not_true_iff_false _) O), (proj1 (not_true_iff_false _) C), Ed. simpl. rewrite app_nil_r.
    destruct (b_delim s R opened prev t H Ed) as [X|[X Y]]; auto. }
  left.
  destruct H as [ns ops k n R Ho Hl Hc|ns f j ops k n R Pf Mf Hz Ho Hl Hc|ns ops k R H Hc].
  - cbn [p_ai]. unfold role1, open1. destruct (is_opening_parenthesis (snd t)) eqn:Eo.
    + simpl. rewrite app_nil_r. apply b_open; auto. econstructor; eauto.
    + rewrite Ec, Ed. simpl. eapply b_operand; eauto. split; [auto|split; [|split]]; unfold opening, closing, delimiter; congruence.
  - cbn [p_ai]. unfold role1, open1. destruct (is_opening_parenthesis (snd t)) eqn:Eo.
    + simpl. rewrite app_nil_r. apply b_open; auto. econstructor; eauto.
    + right. eexists. split.
      * unfold M_Parser.step. unfold blank in Bl. rewrite Bl. rewrite glue_skip by reflexivity. cbn [rbind]. unfold step_main.
        rewrite Eo. reflexivity.
      * simpl. discriminate.
  - cbn [p_ai]. eapply b_behind; eauto; unfold closing, delimiter; congruence.
Qed.

Lemma safe_cons : forall opened prev t ts, safe_delimiters opened prev (t :: ts) ->
  safe_delimiters (fst (open1 opened prev t)) (snd (open1 opened prev t)) ts /\ (delimiter t -> hd false opened = false).
Proof.
  intros opened prev t ts H. simpl in H. unfold open1, delimiter. destruct (is_opening_parenthesis (snd t)) eqn:Eo.
  - split; auto. intros D. destruct (delimiter_cases t D) as (_ & O & _). unfold opening in O. congruence.
  - destruct (is_closing_parenthesis (snd t)) eqn:Ec.
    + split; auto. intros D. destruct (delimiter_cases t D) as (_ & _ & C). unfold closing in C. congruence.
    + destruct (is_delimiter (snd t)); split; try tauto; congruence.
Qed.

Lemma b_run : forall ts s R opened prev, bal s R opened prev -> Forall (fun t => blank t = false) ts ->
  (exists s' opened' prev', run s ts = Ok (Next s') /\ bal s' (R ++ roles strtod pc (p_ai s) ts) opened' prev')
  \/ (exists s', run s ts = Ok (Exit s') /\ p_res s' <> PERR_SUCCESS)
  \/ (run s ts = Ub /\ ~ safe_delimiters opened prev ts).
Proof.
  induction ts as [|t ts IH]; intros s R opened prev H F.
  - left. exists s, opened, prev. simpl. rewrite app_nil_r. auto.
  - inversion F; subst. rewrite roles_cons. cbn [L_Parser.run].
    destruct (b_step s R opened prev t H H2) as [[(s1 & E & B & Ha)|(s1 & E & X)]|(E & D & X)]; rewrite E; cbn [rbind].
    + destruct (IH s1 _ _ _ B H3) as [(s' & o' & p' & E' & B')|[(s' & E' & X')|(E' & X')]].
      * left. exists s', o', p'. split; auto. rewrite app_assoc. rewrite <- Ha. auto.
      * right. left. eauto.
      * right. right. split; auto. intros Sf. apply safe_cons in Sf. tauto.
    + right. left. eauto.
    + right. right. split; auto. intros Sf. apply safe_cons in Sf. destruct Sf as [_ Sf]. rewrite Sf in X by auto. discriminate.
Qed.

Lemma b_conclude : forall s R opened prev n, bal s R opened prev ->
  (exists t, conclude (Ok (Next s)) n = Ok (PTree t) /\ leaves t = operands R /\ Permutation (tree_ops t) (operators R))
  \/ (exists e k, conclude (Ok (Next s)) n = Ok (PErr e k)).
Proof.
  intros s R opened prev n H. unfold conclude. cbn [rbind]. unfold finish, set_tok.
  destruct H as [ns ops k n0 R Ho Hl Hc|ns f j ops k n0 R Pf Mf Hz Ho Hl Hc|ns ops k R H Hc]; cbn [p_nodes p_ops p_res p_ai p_ap p_tok negb].
  - right. do 2 eexists. reflexivity.
  - right. do 2 eexists. reflexivity.
  - unfold pop_rest.
    destruct (pops_behind (fun _ => true) ops ns n false all_true H) as [(ns' & ops' & n' & E & A & B & Cp & D & G)|(x & E & X)];
      rewrite E; cbn [rbind negb p_ops].
    + pose proof (content_same _ _ _ _ _ Hc D) as [C1 C2]. destruct A; try discriminate G; cbn [rbind].
      * left. destruct ns' as [|t [|? ?]]; try discriminate. cbn [p_nodes p_res perr_is_success]. exists t. split; auto.
        simpl in C1, C2. rewrite !app_nil_r in *. auto.
      * right. do 2 eexists. reflexivity.
      * right. do 2 eexists. reflexivity.
    + right. cbn [rbind]. unfold at_exit. destruct (p_res x); try congruence; simpl; eauto.
Qed.

Lemma bal_init : bal init_pstate [] [] false.
Proof. apply (bal_front [] [] 0 0 []); auto. constructor. split; simpl; auto. Qed.

Lemma unblanked_nonblank : forall ts, Forall (fun t => blank t = false) (unblanked ts).
Proof.
  intros. unfold unblanked. apply Forall_forall. intros x Hx. apply filter_In in Hx. destruct Hx as [_ Hx].
  destruct (blank x); auto.
Qed.

Lemma parse_balance : forall ts,
  (exists t, parse_tokens strtod pc ts = Ok (PTree t) /\ leaves t = operands (roles strtod pc false (unblanked ts))
     /\ Permutation (tree_ops t) (operators (roles strtod pc false (unblanked ts))))
  \/ (exists e k, parse_tokens strtod pc ts = Ok (PErr e k))
  \/ (parse_tokens strtod pc ts = Ub /\ ~ safe_delimiters [] false (unblanked ts)).
Proof.
  intros ts. rewrite parse_unblanked.
  destruct (b_run (unblanked ts) init_pstate [] [] false bal_init (unblanked_nonblank ts)) as [(s' & o' & p' & E & B)|[(s' & E & X)|(E & X)]]; rewrite E.
  - destruct (b_conclude s' _ _ _ (List.length ts) B) as [(t & E1 & A1 & A2)|(e & k & E1)].
    + left. exists t. auto.
    + right. left. eauto.
  - right. left. unfold conclude. cbn [rbind]. unfold at_exit. destruct (p_res s'); try congruence; simpl; eauto.
  - right. right. auto.
Qed.
End Bal.
