(** What a definition does to a session. *)
From Coq Require Import List Ascii String NArith ZArith Bool Lia Arith Permutation.
From Verif Require Import M_Base M_StringUtil M_LinkedList M_Trie M_Tree M_Context M_Tokenizer M_Parser M_TreeUtil M_Match M_ArithCtx
  M_Double M_Eval M_Simplify M_Session
  S_Util S_Engine S_Parse S_Tree S_Match S_Session L_StringUtil L_LinkedList L_Trie L_Tokenizer L_Context P_Context L_ArithCtx L_SetUp L_Lex
  L_Tree L_Match L_MatchRule P_Parse L_Expand L_SessionCtx L_OpsKept L_Session.
Import ListNotations.
Open Scope list_scope.
Open Scope nat_scope.
Open Scope res_scope.

Lemma tokens_letters : forall c input ts w, set_up c -> tokenize_with (c_kw c) input = Ok ts -> In w ts -> starts_in letter_char w -> Forall letter_char w.
Proof.
  intros c input ts w S E I St. destruct (set_up_crep c S) as (r & C & _ & D & _ & _). destruct C as (_ & _ & (m & T & Hm) & _).
  destruct (tokenize_lexed (fun s => fst (trie_longest_prefix (c_kw c) s)) (fun k => find_key k m <> None)) with (input := input) as (ts' & E1 & Lx).
  - intros s. apply kwlen_spec; auto.
  - intros k Hk. destruct (Hm k Hk) as (o & Ho & <-). apply D; auto.
  - unfold tokenize_with in E. rewrite E in E1. injection E1 as <-. clear - Lx I St. destruct St as (x & r & -> & Lx').
    induction Lx as [|v rest ts Hne F N Lx IH|v rest ts Hne F N Lx IH|d k rest ts Hl Hk Lx IH|d rest ts Hl Hdg Hno Lx IH]; [destruct I| | | |];
      (destruct I as [I|I]; [|auto]).
    + subst v. auto.
    + subst v. inversion F; subst. exfalso. eapply digit_not_letter; eauto.
    + injection I as -> ->. contradiction.
    + injection I as -> <-. contradiction.
Qed.

(** ** Names *)
Lemma same_slot_op : forall o, o_place o = PFunction -> same_slot (o_name o) PFunction o = true.
Proof. intros o H. unfold same_slot. rewrite H, streqb_refl. reflexivity. Qed.
Lemma without_last : forall us o, o_place o = PFunction -> reg_find us (o_name o) PFunction = None -> without (o_name o) (us ++ [o]) = us.
Proof. intros us o H F. unfold without. rewrite filter_app, (filter_keep _ _ _ F). simpl. rewrite same_slot_op by auto. simpl. apply app_nil_r. Qed.
Lemma fresh_both : forall us n, reg_find (arith_registry ++ us) n PFunction = None ->
  reg_find arith_registry n PFunction = None /\ reg_find us n PFunction = None.
Proof. intros us n F. rewrite reg_find_app in F. destruct (reg_find arith_registry n PFunction); [discriminate F|auto]. Qed.
Lemma undo_add : forall c us o, sctx c (us ++ [o]) -> o_place o = PFunction -> Forall letter_char (o_name o) -> o_name o <> [] ->
  reg_find (arith_registry ++ us) (o_name o) PFunction = None ->
  exists c', ctx_delete_op c (o_name o) PFunction = Ok (c', true) /\ sctx c' us.
Proof.
  intros c us o S P Ln Ne F. destruct (fresh_both _ _ F) as [Fa Fu].
  destruct (sctx_delete c (us ++ [o]) (o_name o) o S Ln Ne Fa) as (c' & E & S').
  - rewrite reg_find_app, Fu. unfold reg_find. simpl. rewrite same_slot_op by auto. reflexivity.
  - exists c'. split; auto. rewrite without_last in S' by auto. auto.
Qed.

(** ** The left side *)
Lemma vars_of_children : forall cs, forallb is_var cs = true -> Forall var_node cs.
Proof. intros cs H. apply Forall_forall. intros n I. rewrite forallb_forall in H. specialize (H n I). destruct n; try discriminate H. exact Logic.I. Qed.
Lemma firsts_len_nodup : forall l, List.length (firsts l) = List.length l -> NoDup l.
Proof.
  intros l E. apply (NoDup_incl_NoDup (l := firsts l)).
  - apply firsts_NoDup.
  - rewrite E. auto.
  - intros x I. apply firsts_In. auto.
Qed.
Lemma with_ids_vars : forall f cs, Forall var_node cs -> Forall var_node (map (with_ids f) cs) /\ flat_map var_names (map (with_ids f) cs) = flat_map var_names cs.
Proof.
  intros f cs F. induction F as [|n cs H F [IH1 IH2]]; [split; auto; constructor|]. destruct n as [|x i k|]; try contradiction. cbn. split; [constructor; auto; exact Logic.I|].
  f_equal. auto.
Qed.
Lemma left_checked : forall t t', do_left_checks t = (true, t') -> exists op cs cs' k, t = NOp op cs k /\ t' = NOp op cs' k /\ o_place op = PFunction /\
  Forall var_node cs /\ Forall var_node cs' /\ flat_map var_names cs' = flat_map var_names cs /\ NoDup (flat_map var_names cs) /\ List.length (flat_map var_names cs) <= MAX_MAPPED_VARS.
Proof.
  intros t t' E. destruct t as [| |op cs k]; try discriminate E. cbn [do_left_checks] in E.
  destruct (placement_eqb_spec (o_place op) PFunction) as [Hp|]; [|discriminate E].
  destruct cs as [|c0 cs0]. { injection E as <-. exists op, [], [], k. repeat split; auto; try constructor. unfold MAX_MAPPED_VARS. simpl. lia. }
  cbn iota beta in E. set (cs := c0 :: cs0) in *. clearbody cs. destruct (forallb is_var cs) eqn:Fv; [|discriminate E]. pose proof (vars_of_children _ Fv) as V.
  unfold list_variables in E.
  destruct (Nat.le_gt_cases (List.length (firsts (var_names (NOp op cs k)))) MAX_MAPPED_VARS) as [Hl|Hl].
  - rewrite lv_top in E by auto. cbn [var_names] in *. injection E as E1 <-. apply Nat.eqb_eq in E1.
    exists op, cs. eexists. exists k. split; auto. split. { cbn [with_ids]. reflexivity. } destruct (with_ids_vars (pos_in (firsts (flat_map var_names cs))) cs V) as [W1 W2].
    pose proof (vars_len cs V) as VL.
    assert (ND : NoDup (flat_map var_names cs)) by (apply firsts_len_nodup; lia).
    repeat split; auto. lia.
  - destruct (lv_top_none _ _ Hl) as [n' Hn]. rewrite Hn in E. discriminate E.
Qed.
Lemma pattern_made : forall op cs k, Forall var_node cs -> NoDup (flat_map var_names cs) -> List.length (flat_map var_names cs) <= MAX_MAPPED_VARS ->
  exists pat, get_pattern (NOp op cs k) [] = PatOk pat.
Proof.
  intros op cs k V N Ln. unfold get_pattern, list_variables. rewrite lv_top. { cbn [add_constraints]. eauto. } cbn [var_names]. rewrite firsts_id by auto. auto.
Qed.
Lemma find_op_none : forall t op, find_op t op = None -> all_ops (fun o _ => o_id o <> o_id op) t.
Proof.
  induction t as [v k|x i k|o cs k IH] using node_ind'; intros op E; try exact Logic.I. cbn [find_op] in E. destruct (Nat.eqb_spec (o_id o) (o_id op)) as [|N]; [discriminate E|].
  apply all_ops_op. split; auto. revert E. generalize 0. induction cs as [|c cs IHc]; intros j E; [constructor|]. inversion IH; subst.
  destruct (find_op c op) eqn:Ec; [discriminate E|]. constructor; auto. eapply IHc; eauto.
Qed.
Lemma all_ops_and : forall (P Q : operator -> nat -> Prop) t, all_ops P t -> all_ops Q t -> all_ops (fun o n => P o n /\ Q o n) t.
Proof.
  intros P Q. induction t as [v k|x i k|o cs k IH] using node_ind'; intros A B; try exact Logic.I. apply all_ops_op in A, B. apply all_ops_op. destruct A as [A1 A2], B as [B1 B2].
  split; auto. rewrite Forall_forall in *. auto.
Qed.

Section Definition_.
Variable L : libm.
Variable fuel : nat.
Variable strtod : cstr -> option double.
Notation arith_simplify := (arith_simplify L fuel).

Definition kept (s s' : session) : Prop := ss_pc s' = ss_pc s /\ ss_funs s' = ss_funs s /\ ss_simp s' = ss_simp s.
(** The answers of a definition command *)
Definition rejected (s : session) (defs : list fundef) (r : step cmdres) : Prop :=
  exists s', r = Done (Ok (Did s' [SError] false)) /\ inv s' defs /\ kept s s'.
Definition simplify_fails (s : session) (defs : list fundef) (right : cstr) (r : step cmdres) : Prop :=
  exists c op ts t, sctx c (map f_op defs ++ [op]) /\ parse_input strtod c right = Ok (ts, PTree t) /\ find_op t op = None /\
  (((exists s1, arith_simplify (with_ctx s c) ts t = Done (Ok (s1, None))) /\ r = Done Ub) \/
   (arith_simplify (with_ctx s c) ts t = Done Ub /\ r = Done Ub) \/
   (arith_simplify (with_ctx s c) ts t = Done Halt /\ r = Done Halt) \/
   (arith_simplify (with_ctx s c) ts t = Forever /\ r = Forever)).
Definition parse_crashes (defs : list fundef) (left right : cstr) (r : step cmdres) : Prop :=
  r = Done Ub /\ exists c op, sctx c (map f_op defs ++ [op]) /\ (parse_input strtod c left = Ub \/ parse_input strtod c right = Ub).
Definition new_function (s s' : session) (defs : list fundef) (name left right : cstr) (f : fundef) : Prop :=
  o_name (f_op f) = name /\ o_id (f_op f) = 58 + List.length defs /\ reg_find (arith_registry ++ map f_op defs) name PFunction = None /\
  (exists c0 op0 ts op cs k, sctx c0 (map f_op defs ++ [op0]) /\ o_name op0 = name /\ o_place op0 = PFunction /\ parse_input strtod c0 left = Ok (ts, PTree (NOp op cs k)) /\
     Forall var_node cs /\ flat_map var_names cs = f_params f) /\
  (exists ts t s1, parse_input strtod (ss_ctx s') right = Ok (ts, PTree t) /\ find_op t (f_op f) = None /\ incl (var_names (f_body f)) (f_params f) /\
     arith_simplify (with_ctx s (ss_ctx s')) ts t = Done (Ok (s1, Some (f_body f))) /\ ss_world s' = ss_world s1).
Definition new_inv (s s' : session) (defs : list fundef) (f : fundef) : Prop :=
  sctx (ss_ctx s') (map f_op (defs ++ [f])) /\ o_place (f_op f) = PFunction /\
  ((forall sm, ss_simp s = Some sm -> tame builtin_like sm) -> G builtin_like (f_body f)) /\ (G builtin_like (f_body f) -> inv s' (defs ++ [f])).
Definition accepted (s : session) (defs : list fundef) (name left right : cstr) (r : step cmdres) : Prop :=
  exists s' f, r = Done (Ok (Did s' [] true)) /\ new_inv s s' defs f /\ new_function s s' defs name left right f /\
    (exists rl, ss_funs s' = ss_funs s ++ [rl]) /\ ss_simp s' = ss_simp s /\ ss_pc s' = ss_pc s.

Lemma error_rejected : forall s s1 defs c o, inv s defs -> sctx c (map f_op defs ++ [o]) -> ss_ctx s1 = c -> kept s s1 -> o_place o = PFunction -> Forall letter_char (o_name o) -> o_name o <> [] ->
  reg_find (arith_registry ++ map f_op defs) (o_name o) PFunction = None -> rejected s defs (definition_error s1 (o_name o)).
Proof.
  intros s s1 defs c o V S <- (K1 & K2 & K3) P Ln Ne F. destruct (undo_add _ _ _ S P Ln Ne F) as (c' & E & S').
  unfold definition_error. rewrite E. cbn [of_res sbind]. exists (with_ctx s1 c'). split; [reflexivity|]. split; [|split; auto].
  constructor; cbn [with_ctx ss_ctx ss_funs ss_simp].
  - auto.
  - rewrite K2. apply (i_rules _ _ V).
  - apply (i_funs _ _ V).
Qed.

Lemma define_right_cases : forall s defs c op cs k right, inv s defs -> sctx c (map f_op defs ++ [op]) ->
  o_place op = PFunction -> Forall letter_char (o_name op) -> o_name op <> [] -> reg_find (arith_registry ++ map f_op defs) (o_name op) PFunction = None ->
  o_id op = 58 + List.length defs -> o_arity op = Some (List.length cs) ->
  Forall var_node cs -> NoDup (flat_map var_names cs) -> List.length (flat_map var_names cs) <= MAX_MAPPED_VARS -> Forall (fun x => ~ list_name x) (flat_map var_names cs) ->
  let r := define_right L fuel strtod (with_ctx s c) (o_name op) (NOp op cs k) (Some op) right in
  rejected s defs r \/
  (exists s' f, r = Done (Ok (Did s' [] true)) /\ new_inv s s' defs f /\ f_op f = op /\ f_params f = flat_map var_names cs /\ ss_ctx s' = c /\
     (exists rl, ss_funs s' = ss_funs s ++ [rl]) /\ ss_simp s' = ss_simp s /\ ss_pc s' = ss_pc s /\
     exists ts t s1, parse_input strtod c right = Ok (ts, PTree t) /\ find_op t op = None /\ incl (var_names (f_body f)) (f_params f) /\
       arith_simplify (with_ctx s c) ts t = Done (Ok (s1, Some (f_body f))) /\ ss_world s' = ss_world s1) \/
  (r = Done Ub /\ parse_input strtod c right = Ub) \/
  simplify_fails s defs right r.
Proof.
  intros s defs c op cs k right V S P Ln Ne F Id Ar Vn ND Lm NL r.
  assert (Rej : forall s1, kept s s1 -> ss_ctx s1 = c -> rejected s defs (definition_error s1 (o_name op))).
  { intros s1 K1 K2. eapply error_rejected; eauto. }
  unfold r, define_right. destruct (parse_raw_cases strtod (with_ctx s c) _ right S) as [[E1 E2]|[(ts & t & E1 & E2)|(ts & e & j & E1 & E2)]];
    rewrite E2; cbn [of_res sbind]; change (ss_ctx (with_ctx s c)) with c in E1.
  - right. right. left. auto.
  - destruct (find_op t op) as [q|] eqn:Fo. { left. apply Rej; [repeat split; auto|reflexivity]. }
    assert (FA : forall r', (((exists s1, arith_simplify (with_ctx s c) ts t = Done (Ok (s1, None))) /\ r' = Done Ub) \/
       (arith_simplify (with_ctx s c) ts t = Done Ub /\ r' = Done Ub) \/ (arith_simplify (with_ctx s c) ts t = Done Halt /\ r' = Done Halt) \/
       (arith_simplify (with_ctx s c) ts t = Forever /\ r' = Forever)) -> simplify_fails s defs right r').
    { intros r' H. exists c, op, ts, t. auto. }
    destruct (arith_simplify (with_ctx s c) ts t) as [[[s1 [b|]]| |]|] eqn:Es; cbn [sbind].
    + destruct (pattern_made op cs k Vn ND Lm) as (pat & Ep). rewrite Ep.
      destruct (simplify_session _ _ _ _ _ _ _ Es) as (w & Ew).
      destruct (get_rule pat b) as [rl|] eqn:Er.
      * right. left. exists (with_funs s1 (ss_funs s1 ++ [rl])), (mkFun op (flat_map var_names cs) b). cbn [f_op f_params f_body]. subst s1.
        assert (Rf : rule_for rl (mkFun op (flat_map var_names cs) b)). { exists cs, k, pat. auto. }
        assert (Gb : (forall sm, ss_simp s = Some sm -> tame builtin_like sm) -> G builtin_like b).
        { intro TM. refine (simplify_builtin L fuel s defs c (map f_op defs ++ [op]) ts t _ b V TM S _ Es). apply (parsed_known s defs (map f_op defs)); auto.
          pose proof (parsed_ops _ _ _ _ _ _ S E1) as A. pose proof (all_ops_and _ _ _ A (find_op_none _ _ Fo)) as B. eapply all_ops_impl; [|exact B].
          intros o n ((Io & Ha) & No). split; auto. rewrite app_assoc in Io. apply in_app_or in Io. destruct Io as [Io|[<-|[]]]; [auto|congruence]. }
        split; auto. split.
        { split. { rewrite map_app. exact S. } split; [exact P|]. split; [exact Gb|]. clear Gb. intro Gb. constructor; cbn [with_world with_funs with_ctx ss_ctx ss_funs ss_simp].
          - rewrite map_app. exact S.
          - apply Forall2_app; [apply (i_rules _ _ V)|]. constructor; auto.
          - apply Forall_app. split; [apply (i_funs _ _ V)|]. constructor; auto. unfold fun_ok, id_of. cbn [f_op f_params f_body]. rewrite (vars_len cs Vn), Id.
            repeat split; auto; lia. }
        cbn [with_world with_funs with_ctx ss_ctx ss_funs ss_simp ss_pc ss_world]. repeat split; eauto.
        exists ts, t, (with_world (with_ctx s c) w). repeat split; auto.
        destruct (get_rule_spec _ _ _ b Ep) as [_ B]. destruct (names_incl_dec (var_names b) (flat_map var_names cs)) as [|N]; auto. rewrite B in Er by (cbn [var_names]; auto). discriminate Er.
      * left. apply Rej; subst s1; [repeat split; auto|reflexivity].
    + right. right. right. apply FA. left. split; eauto.
    + right. right. right. apply FA. auto.
    + right. right. right. apply FA. auto.
    + right. right. right. apply FA. auto 6.
  - left. apply Rej; [repeat split; auto|reflexivity].
Qed.

(** An expression that is a single name *)
Lemma single_name : forall c us ts t name op0 i, sctx c us -> ctx_lookup_op c name PFunction = Ok (Some op0) -> o_arity op0 = Some 0 ->
  starts_in letter_char name -> unblanked ts = [(i, name)] -> forall input, parse_input strtod c input = Ok (ts, PTree t) -> t = NOp op0 [] i.
Proof.
  intros c us ts t name op0 i S Lk Ar (x & r & -> & Lx) U input E. destruct (C18_tokens_used_once _ _ _ _ _ (proj1 (proj2 S)) E) as [Lv Op]. pose proof (C17_arities_respected _ _ _ _ _ E) as A.
  rewrite U in Lv, Op. cbn [roles snd] in Lv, Op.
  assert (Np : is_opening_parenthesis (x :: r) = false /\ is_closing_parenthesis (x :: r) = false /\ is_delimiter (x :: r) = false).
  { assert (B : is_letter x = true) by (apply is_letter_spec; auto). clear - B. unfold is_opening_parenthesis, is_closing_parenthesis, is_delimiter.
    destruct x as [[|] [|] [|] [|] [|] [|] [|] [|]]; try discriminate B; repeat split; reflexivity. }
  destruct Np as (N1 & N2 & N3). rewrite N1, N2, N3 in Lv, Op. unfold operand_role in Lv, Op. cbn [snd fst] in Lv, Op. unfold view in Lv, Op. cbn [pc_lookup] in Lv, Op. rewrite Lk, Ar in Lv, Op.
  cbn in Lv, Op. apply Permutation_sym, Permutation_nil in Op. destruct t as [v k|y d k|op cs k]; try discriminate Lv.
  cbn [leaves tree_ops arities_ok] in *. destruct (arity_eqb (o_arity op) (Some 0)) eqn:Z; [|discriminate Op]. congruence.
Qed.
Lemma unblanked_filter : forall ts, map snd (unblanked ts) = filter (fun t => negb (blank_token t)) ts.
Proof.
  assert (H : forall ts i, map snd (filter (fun t => negb (blank t)) (indexed i ts)) = filter (fun t => negb (blank_token t)) ts).
  { induction ts as [|t ts IH]; intros i; auto. unfold indexed in *. cbn [List.length List.seq combine filter].
    assert (B : blank (i, t) = blank_token t). { unfold blank, blank_token. cbn [snd]. destruct t; reflexivity. }
    rewrite B. destruct (blank_token t); cbn [negb map snd]; [apply IH|]. f_equal. apply IH. }
  intros ts. apply H.
Qed.

Lemma stored_id : forall c us op, sctx c us -> o_id (stored c op) = 58 + List.length us.
Proof.
  intros c us op S. unfold stored. cbn [o_id]. unfold list_count. rewrite (count_crep _ _ (proj1 S)), app_length, arith_len. reflexivity.
Qed.
Lemma session_tokens : forall c c' us us' input, sctx c us -> sctx c' us' -> tokenize_with (c_kw c) input = tokenize_with (c_kw c') input.
Proof. intros c c' us us' input (_ & _ & _ & T) (_ & _ & _ & T'). rewrite T, T'. reflexivity. Qed.
Lemma plain_names : forall c us input ts t cs op k, sctx c us -> ~ In "["%char input -> parse_input strtod c input = Ok (ts, PTree t) -> t = NOp op cs k ->
  Forall (fun x => ~ list_name x) (flat_map var_names cs).
Proof.
  intros c us input ts t cs op k S NB E ->. apply Forall_forall. intros x I (y & ->). apply NB.
  rewrite <- (parse_concat _ _ _ _ _ (proj1 (proj2 S)) E). apply in_concat. exists ("["%char :: y). split; [|left; auto].
  eapply parsed_vars; eauto.
Qed.

Theorem add_function_cases : forall s defs name left right ts others, inv s defs -> Forall letter_char name -> name <> [] ->
  ~ In "["%char left -> tokenize_with (c_kw (ss_ctx s)) left = Ok ts -> filter (fun t => negb (blank_token t)) ts = name :: others ->
  let r := add_function L fuel strtod s name left right (List.length others =? 0) in
  rejected s defs r \/ accepted s defs name left right r \/ parse_crashes defs left right r \/ simplify_fails s defs right r.
Proof.
  intros s defs name left right ts others V Ln Ne NB Tk Fl r. pose proof (i_ctx _ _ V) as S. set (us := map f_op defs) in *.
  assert (Lu : List.length us = List.length defs) by apply map_length.
  unfold r, add_function. rewrite (lookup_crep _ _ _ _ (proj1 S)). cbn [of_res sbind].
  destruct (reg_find (arith_registry ++ us) name PFunction) as [o|] eqn:Fr.
  { left. exists s. split; [reflexivity|]. split; auto. repeat split. }
  set (a := if List.length others =? 0 then Some 0 else @None nat).
  replace (if List.length others =? 0 then op_get_constant name else op_get_function name None) with (op_get_function name a)
    by (unfold a, op_get_constant; destruct (List.length others =? 0); reflexivity).
  destruct (sctx_add (ss_ctx s) us name a S Ln Ne Fr) as (c1 & E1 & S1). set (op1 := stored (ss_ctx s) (op_get_function name a)) in *.
  rewrite E1. cbn [sbind of_res].
  assert (O1 : o_name op1 = name /\ o_place op1 = PFunction /\ o_arity op1 = a) by (repeat split).
  destruct O1 as (On & Op & Oa).
  assert (Oid : o_id op1 = 58 + List.length defs) by (unfold op1; rewrite (stored_id _ us) by auto; lia). clearbody op1.
  assert (Rej : rejected s defs (definition_error (with_ctx s c1) name)).
  { rewrite <- On at 1. apply (error_rejected s (with_ctx s c1) defs c1 op1); auto; try (rewrite On; auto). repeat split. }
  destruct (parse_raw_cases strtod (with_ctx s c1) _ left S1) as [[P1 P2]|[(ts1 & t & P1 & P2)|(ts1 & e & j & P1 & P2)]];
    rewrite P2; cbn [sbind of_res]; change (ss_ctx (with_ctx s c1)) with c1 in P1.
  - right. right. left. split; auto. exists c1, op1. auto.
  - destruct (do_left_checks t) as [[|] lt] eqn:Lc; [|auto].
    destruct (left_checked _ _ Lc) as (op & cs & cs' & k & Et & El & Hp & V1 & V2 & Ev & ND & Lm).
    pose proof (plain_names c1 _ left ts1 t cs op k S1 NB P1 Et) as PN.
    destruct (List.length others =? 0) eqn:Oth.
    + assert (Ts : ts1 = ts).
      { destruct (parse_input_tokens strtod c1 (proj1 (proj2 S1)) left) as (ts2 & T2 & _ & Pq). rewrite Pq in P1.
        destruct (parse_tokens strtod (view c1) ts2) as [q| |]; cbn [rbind] in P1; try discriminate P1. injection P1 as -> _.
        rewrite (session_tokens c1 (ss_ctx s) _ _ left S1 S), Tk in T2. congruence. }
      subst ts1. destruct others as [|x others]; [|discriminate Oth].
      pose proof (unblanked_filter ts) as U. rewrite Fl in U. destruct (unblanked ts) as [|[i nm] [|y l]] eqn:Ub; try discriminate U. injection U as ->.
      assert (Tt : t = NOp op1 [] i).
      { eapply (single_name c1 _ ts t name op1 i S1); eauto.
        - rewrite (lookup_crep _ _ _ _ (proj1 S1)), app_assoc, reg_find_app, Fr. unfold reg_find. simpl. unfold same_slot. rewrite Op, On, streqb_refl. reflexivity.
        - destruct name as [|y l]; [congruence|]. inversion Ln; subst. exists y, l. auto. }
      rewrite Et in Tt. injection Tt as -> -> ->. assert (Cn : cs' = []). { clear - V2 Ev. destruct cs' as [|z cs']; auto. inversion V2; subst. destruct z; try contradiction; discriminate Ev. }
      rewrite Cn in El. rewrite El. clear Lc El.
      destruct (define_right_cases s defs c1 op1 [] i right V S1 Op) as [R|[R|[R|R]]]; auto.
      * rewrite On. auto.
      * rewrite On. auto.
      * rewrite On. auto.
      * rewrite On in R. left. auto.
      * right. left. destruct R as (s' & f & R1 & R2 & R3 & R4 & R5 & R6 & R7 & R8 & ts2 & t2 & s2 & R9 & R10 & R11 & R12 & R13). exists s', f. rewrite On in R1. split; auto. split; auto.
        split; auto. split. { rewrite R3. auto. } split. { rewrite R3. auto. } split; auto. split.
        -- exists c1, op1, ts, op1, [], i. rewrite Et in P1. exact (conj S1 (conj On (conj Op (conj P1 (conj V1 (eq_sym R4)))))).
        -- exists ts2, t2, s2. rewrite R3, R5. auto.
      * right. right. left. rewrite On in R. destruct R as [R1 R2]. split; auto. exists c1, op1. auto.
      * rewrite On in R. auto.
    + assert (C1 : ctx_delete_op (ss_ctx (with_ctx s c1)) name PFunction = ctx_delete_op c1 (o_name op1) PFunction) by (rewrite On; reflexivity).
      destruct (undo_add c1 us op1 S1 Op) as (c2 & E2 & S2); try (rewrite On; auto).
      rewrite C1, E2. cbn [sbind of_res].
      set (n := num_children lt). destruct (sctx_add c2 us name (Some n) S2 Ln Ne Fr) as (c3 & E3 & S3). set (op3 := stored c2 (op_get_function name (Some n))) in *.
      rewrite E3. cbn [sbind of_res].
      assert (O3 : o_name op3 = name /\ o_place op3 = PFunction /\ o_arity op3 = Some n) by (repeat split). destruct O3 as (On3 & Op3 & Oa3).
      assert (Oid3 : o_id op3 = 58 + List.length defs) by (unfold op3; rewrite (stored_id _ us) by auto; lia). clearbody op3.
      subst lt. cbn [set_op]. assert (Nc : n = List.length cs') by reflexivity.
      destruct (define_right_cases s defs c3 op3 cs' k right V S3 Op3) as [R|[R|[R|R]]]; auto.
      * rewrite On3. auto.
      * rewrite On3. auto.
      * rewrite On3. auto.
      * rewrite Ev. auto.
      * rewrite Ev. auto.
      * rewrite Ev. auto.
      * rewrite On3 in R. auto.
      * right. left. destruct R as (s' & f & R1 & R2 & R3 & R4 & R5 & R6 & R7 & R8 & ts2 & t2 & s2 & R9 & R10 & R11 & R12 & R13). exists s', f. rewrite On3 in R1. split; auto. split; auto.
        split; auto. split. { rewrite R3. auto. } split. { rewrite R3. auto. } split; auto. split.
        -- exists c1, op1, ts1, op, cs, k. rewrite Et in P1. rewrite R4, Ev. exact (conj S1 (conj On (conj Op (conj P1 (conj V1 eq_refl))))).
        -- exists ts2, t2, s2. rewrite R3, R5. auto.
      * right. right. left. rewrite On3 in R. destruct R as [R1 R2]. split; auto. exists c3, op3. auto.
      * rewrite On3 in R. auto.
  - auto.
Qed.

Theorem definition_cases : forall s defs input n, inv s defs -> ~ In "["%char input -> strstr input DEFINITION_OP = Some n ->
  let left := firstn n input in let right := skipn (n + 1) input in
  let r := cmd_definition_exec L fuel strtod s input in
  rejected s defs r \/ (exists name, accepted s defs name left right r /\
     exists ts others, tokenize_with (c_kw (ss_ctx s)) left = Ok ts /\ map snd (unblanked ts) = name :: others /\ starts_in letter_char name) \/
  parse_crashes defs left right r \/ simplify_fails s defs right r.
Proof.
  intros s defs input n V NB E left right r. unfold r, cmd_definition_exec. rewrite E. change (List.length DEFINITION_OP) with 1. fold left right.
  assert (Fail : rejected s defs (failed s)). { exists s. split; [reflexivity|]. split; auto. repeat split. }
  destruct (set_up_tokens (ss_ctx s) (proj1 (proj2 (i_ctx _ _ V))) left) as (ts & Tk & K & Nn). pose proof Tk as Tk'. unfold tokenize_with in Tk'. rewrite Tk'. cbn [of_res sbind].
  destruct (filter (fun t => negb (blank_token t)) ts) as [|name others] eqn:Fl; [auto|]. destruct name as [|c name]; [auto|]. destruct (is_letter c) eqn:Il; [|auto].
  assert (St : starts_in letter_char (c :: name)). { exists c, name. split; auto. apply is_letter_spec. auto. }
  assert (Ln : Forall letter_char (c :: name)).
  { eapply tokens_letters; [exact (proj1 (proj2 (i_ctx _ _ V)))|exact Tk| |exact St]. assert (I : In (c :: name) (filter (fun t => negb (blank_token t)) ts)) by (rewrite Fl; left; auto).
    apply filter_In in I. tauto. }
  destruct (add_function_cases s defs (c :: name) left right ts others V Ln) as [R|[R|[R|R]]]; auto.
  - discriminate.
  - intros I. apply NB. rewrite <- (firstn_skipn n input). apply in_or_app. auto.
  - right. left. exists (c :: name). split; auto. exists ts, others. rewrite unblanked_filter. auto.
Qed.
End Definition_.
