(** Property C72: the constraints of rules: their language and their meaning. *)
From Coq Require Import Reals.
From Coq Require Import List Ascii String NArith ZArith Bool Lia Arith.
From Coq.Floats Require Import SpecFloat.
From Verif Require Import M_Base M_StringUtil M_Tree M_Context M_Parser M_TreeUtil M_Match M_ArithCtx M_Strtod M_Double M_Eval M_Simplify S_Engine S_Tree S_Parse S_Simplify S_Constraint L_Context L_Tree L_ArithCtx L_SetUp L_Constraint P_Simplify.
Import ListNotations.
Open Scope string_scope.
Open Scope list_scope.
Open Scope nat_scope.
Open Scope res_scope.

(** ** The language *)
Definition describesb (w : string * placement * option nat * nat * assoc) (op : operator) : bool :=
  match w with (n, p, a, k, s) =>
    match list_eq_dec ascii_dec (o_name op) (str n) with left _ => true | _ => false end &&
    match o_place op, p with PPrefix, PPrefix | PInfix, PInfix | PPostfix, PPostfix | PFunction, PFunction => true | _, _ => false end &&
    match o_arity op, a with Some i, Some j => i =? j | None, None => true | _, _ => false end &&
    (o_prec op =? k) && match o_assoc op, s with ALeft, ALeft | ARight, ARight => true | _, _ => false end
  end.
Lemma describesb_spec : forall w op, describesb w op = true -> describes w op.
Proof.
  intros [[[[n p] a] k] s] op H. unfold describesb, describes in *. rewrite !andb_true_iff in H. destruct H as ((((H1 & H2) & H3) & H4) & H5).
  destruct (list_eq_dec ascii_dec (o_name op) (str n)); [|discriminate]. apply Nat.eqb_eq in H4. split; auto.
  split; [destruct (o_place op), p; auto; discriminate|]. split; [destruct (o_arity op), a; auto; try discriminate; apply Nat.eqb_eq in H3; congruence|].
  split; auto. destruct (o_assoc op), s; auto; discriminate.
Qed.
Lemma find_app : forall A (f : A -> bool) l m, List.find f (l ++ m) = match List.find f l with Some x => Some x | None => List.find f m end.
Proof. intros A f l m. induction l as [|x l IH]; auto. cbn [app List.find]. destruct (f x); auto. Qed.

Lemma okinj : forall A (a b : A), Ok a = Ok b -> a = b. Proof. congruence. Qed.
Lemma someinj : forall A (a b : A), Some a = Some b -> a = b. Proof. congruence. Qed.

(** Rules are read with the operators of the calculator, unchanged, and the words of the table, and no others; two
    expressions side by side are not a product; the infix operators of the calculator bind tighter than the
    comparisons (except "C" and "mod": see below), and these tighter than "or". *)
Theorem C72_language :
  init_propositional_ctx = Ok the_prop_ctx /\ set_up the_prop_ctx /\ ctx_glue the_prop_ctx = Ok None /\
  (forall n p op, ctx_lookup_op the_arith_ctx n p = Ok (Some op) -> ctx_lookup_op the_prop_ctx n p = Ok (Some op)) /\
  (forall w, In w constraint_words -> exists op, describes w op /\ ctx_lookup_op the_prop_ctx (o_name op) (o_place op) = Ok (Some op)) /\
  (forall n p op, ctx_lookup_op the_prop_ctx n p = Ok (Some op) ->
     o_name op = n /\ o_place op = p /\ (ctx_lookup_op the_arith_ctx n p = Ok (Some op) \/ exists w, In w constraint_words /\ describes w op)) /\
  (forall n op, ctx_lookup_op the_arith_ctx n PInfix = Ok (Some op) -> n <> str "C" -> n <> str "mod" -> 1 < o_prec op).
Proof.
  destruct prop_ctx_ok as (E & C & G & Su). destruct arith_ctx_ok as (_ & CA & _).
  assert (Sp : prop_registry = arith_registry ++ skipn 58 prop_registry) by (vm_compute; reflexivity).
  split; [exact E|]. split; [exact Su|]. split; [exact G|]. split; [|split; [|split]].
  - intros n p op H. rewrite (lookup_crep _ _ n p CA) in H. rewrite prop_lookup, Sp. unfold reg_find in *. rewrite find_app. apply okinj in H. rewrite H. reflexivity.
  - assert (X : forallb (fun w => existsb (fun op => describesb w op &&
        match reg_find prop_registry (o_name op) (o_place op) with Some o => (o_id o =? o_id op) | None => false end) prop_registry) constraint_words = true) by (vm_compute; reflexivity).
    assert (Y : forall op o, In op prop_registry -> reg_find prop_registry (o_name op) (o_place op) = Some o -> o_id o = o_id op -> o = op).
    { intros op o I F Ei. apply reg_find_In in F. destruct F as (F & _). clear -I F Ei.
      assert (N : forall l k a b, In a (map (fun x => mkOp (o_name (snd x)) (fst x) (o_arity (snd x)) (o_prec (snd x)) (o_assoc (snd x)) (o_place (snd x)) (fst x)) (combine (List.seq k (List.length l)) l)) ->
        In b (map (fun x => mkOp (o_name (snd x)) (fst x) (o_arity (snd x)) (o_prec (snd x)) (o_assoc (snd x)) (o_place (snd x)) (fst x)) (combine (List.seq k (List.length l)) l)) -> o_id a = o_id b -> a = b).
      { assert (B : forall l k a, In a (map (fun x => mkOp (o_name (snd x)) (fst x) (o_arity (snd x)) (o_prec (snd x)) (o_assoc (snd x)) (o_place (snd x)) (fst x)) (combine (List.seq k (List.length l)) l)) -> k <= o_id a).
        { induction l as [|x l IH]; intros k a H; [destruct H|]. destruct H as [<-|H]; [cbn; lia|]. apply IH in H. lia. }
        induction l as [|x l IH]; intros k a b Ha Hb Eq; [destruct Ha|]. destruct Ha as [<-|Ha], Hb as [<-|Hb]; auto.
        - apply B in Hb. cbn in Eq. lia.
        - apply B in Ha. cbn in Eq. lia.
        - eapply IH; eauto. }
      exact (N (arith_ops ++ prop_ops) 0 o op F I Ei). }
    intros w Iw. rewrite forallb_forall in X. apply X in Iw. apply existsb_exists in Iw. destruct Iw as (op & Io & Iw). apply andb_true_iff in Iw. destruct Iw as [D F].
    exists op. split; [apply describesb_spec; exact D|]. rewrite prop_lookup. revert F. destruct (reg_find prop_registry (o_name op) (o_place op)) as [o|] eqn:Ef; [|intros F; discriminate F].
    intros F. apply Nat.eqb_eq in F. rewrite (Y _ _ Io Ef F). reflexivity.
  - intros n p op H. rewrite prop_lookup in H. apply okinj in H. pose proof (reg_find_In _ _ _ _ H) as (_ & Hn & Hp). split; auto. split; auto.
    rewrite Sp in H. unfold reg_find in H. rewrite find_app in H. rewrite (lookup_crep _ _ n p CA). unfold reg_find. destruct (List.find (same_slot n p) arith_registry) as [o|].
    + left. apply someinj in H. rewrite H. reflexivity.
    + right. apply find_some in H. destruct H as [H _].
      assert (X : forallb (fun op => existsb (fun w => describesb w op) constraint_words) (skipn 58 prop_registry) = true) by (vm_compute; reflexivity).
      rewrite forallb_forall in X. apply X in H. apply existsb_exists in H. destruct H as (w & Iw & D). exists w. split; auto. apply describesb_spec. exact D.
  - intros n op H N1 N2. rewrite (lookup_crep _ _ n PInfix CA) in H. apply okinj in H. apply reg_find_In in H. destruct H as (I & Hn & P). rewrite <- Hn in N1, N2.
    assert (X : forallb (fun op => match o_place op with PInfix => (1 <? o_prec op) || (if list_eq_dec ascii_dec (o_name op) (str "C") then true else false)
      || (if list_eq_dec ascii_dec (o_name op) (str "mod") then true else false) | _ => true end) arith_registry = true) by (vm_compute; reflexivity).
    rewrite forallb_forall in X. apply X in I. rewrite P in I. destruct (list_eq_dec ascii_dec (o_name op) (str "C")); [contradiction|].
    destruct (list_eq_dec ascii_dec (o_name op) (str "mod")); [contradiction|]. rewrite !orb_false_r in I. apply Nat.ltb_lt in I. exact I.
Qed.
Print Assumptions C72_language.

(** ** The meaning *)
(** A constraint is checked to hold exactly if it is true; one in which some expression has no value does not hold. *)
Theorem C72_meaning : forall L fuel w value t c, stands_for the_prop_ctx t c -> all_operands of_calculator (evaluates L fuel w value) c ->
  propositional_checker L fuel the_prop_ctx w t = Ok (match meaning value c with Some b => b | None => false end).
Proof. intros L fuel w value t c H O. eapply constraint_checked; eauto. Qed.
Print Assumptions C72_meaning.
(** From a text: *)
Definition constraint (s : string) : node := match parse_easy strtod the_prop_ctx (str s) with Ok (Some t) => t | _ => NConst S754_nan 0 end.
Definition look (n : string) (p : placement) : operator := match ctx_lookup_op the_prop_ctx (str n) p with Ok (Some op) => op | _ => mkOp [] 999 None 0 ALeft PInfix 999 end.
Lemma looked : forall n p, match ctx_lookup_op the_prop_ctx (str n) p with Ok (Some _) => true | _ => false end = true -> word the_prop_ctx n p (look n p).
Proof. intros n p H. unfold word, look. destruct (ctx_lookup_op the_prop_ctx (str n) p) as [[op|]| |]; auto; discriminate. Qed.
Definition xp1 : node := NOp (look "+" PInfix) [NVar (str "x") 0 2; NConst (of_Z 1) 6] 4.
Definition sum8 : node := NOp (look "+" PInfix) [NConst (of_Z 7) 17; NConst (of_Z 1) 21] 19.
Definition case_tree : node :=
  NOp (look "||" PInfix)
    [NOp (look "||" PInfix)
       [NOp (look "==" PInfix) [NOp (look "type" PFunction) [xp1] 0; NOp (look "CONST" PFunction) [] 11] 9;
        NOp (look "!" PPrefix) [NOp (look "<" PInfix) [sum8; NConst (of_Z 3) 25] 23] 15] 13;
     NOp (look "equal" PFunction) [NVar (str "x") 0 32; NVar (str "y") 0 35] 30] 28.
Definition case_cond : cond :=
  Either (Either (IsKind xp1 KindConst) (Negation (Compare Less sum8 (NConst (of_Z 3) 25)))) (Same (NVar (str "x") 0 32) (NVar (str "y") 0 35)).
Definition case_value (t : node) : option double := match t with NConst v _ => Some v | _ => Some (of_Z 8) end.
Lemma look_plus : o_id (look "+" PInfix) = 4 /\ o_addr (look "+" PInfix) = 4. Proof. vm_compute. split; reflexivity. Qed.
Example C72_meaning_case : forall w,
  parse_easy strtod the_prop_ctx (str "type(x + 1) == CONST || !(7 + 1 < 3) || equal(x, y)") = Ok (Some case_tree) /\
  stands_for the_prop_ctx case_tree case_cond /\
  all_operands of_calculator (evaluates no_libm 0 w case_value) case_cond /\
  meaning case_value case_cond = Some true /\ propositional_checker no_libm 0 the_prop_ctx w case_tree = Ok true.
Proof.
  intros w.
  assert (A : stands_for the_prop_ctx case_tree case_cond).
  { unfold case_tree, case_cond. apply sf_either; [apply looked; vm_compute; reflexivity| |apply sf_same; apply looked; vm_compute; reflexivity].
    apply sf_either; [apply looked; vm_compute; reflexivity|apply sf_kind; apply looked; vm_compute; reflexivity|].
    apply sf_negation; [apply looked; vm_compute; reflexivity|]. apply sf_compare. apply looked; vm_compute; reflexivity. }
  assert (B : all_operands of_calculator (evaluates no_libm 0 w case_value) case_cond).
  { assert (P : forall a b i, (forall op, In op (operators_of a) -> False) -> (forall op, In op (operators_of b) -> False) -> of_calculator (NOp (look "+" PInfix) [a; b] i)).
    { intros a b i Ha Hb op [<-|H]; [destruct look_plus; lia|]. cbn [flat_map] in H. rewrite app_nil_r in H. apply in_app_or in H. destruct H as [H|H]; [destruct (Ha _ H)|destruct (Hb _ H)]. }
    assert (Lf : forall t, operators_of t = [] -> of_calculator t) by (intros t E op H; rewrite E in H; destruct H).
    cbn [all_operands case_cond]. split; [split; [apply P; intros op []|split; [split; [apply P; intros op []|]|split; [apply Lf; reflexivity|constructor]]]|split; apply Lf; reflexivity].
    unfold evaluates, sum8. cbn [case_value]. eapply ev_apply; [econstructor; [constructor|econstructor; [constructor|constructor]]|].
    unfold arith_listener, arith_op_evaluate. destruct look_plus as [-> _]. vm_compute. reflexivity. }
  split; [vm_compute; reflexivity|]. split; [exact A|]. split; [exact B|]. split; [vm_compute; reflexivity|].
  exact (C72_meaning no_libm 0 w case_value _ _ A B).
Qed.

(** ** Where the language is not what one expects *)
(** "C" and "mod" bind no tighter than a comparison: what stands right of the sign is cut off. *)
Theorem C72_binding_refuted : ~ (forall n op sign, ctx_lookup_op the_arith_ctx n PInfix = Ok (Some op) -> word the_prop_ctx "==" PInfix sign -> o_prec sign < o_prec op).
Proof.
  intros H. specialize (H (str "mod") (look "mod" PInfix) (look "==" PInfix) ltac:(vm_compute; reflexivity) ltac:(apply looked; vm_compute; reflexivity)). vm_compute in H. lia.
Qed.
Print Assumptions C72_binding_refuted.
Example C72_binding_case :
  tree_equals (constraint "0 == 4 mod 2") (constraint "(0 == 4) mod 2") = true /\ tree_equals (constraint "0 == 4 mod 2") (constraint "0 == (4 mod 2)") = false
  /\ tree_equals (constraint "4 mod 2 == 0") (constraint "(4 mod 2) == 0") = true /\ tree_equals (constraint "0 == 4 + 2") (constraint "0 == (4 + 2)") = true
  /\ (forall w, propositional_checker no_libm 0 the_prop_ctx w (constraint "2 == 4 + 2 || 6 == 4 + 2") = Ok true).
Proof. repeat (split; [vm_compute; reflexivity|]). intros w. vm_compute. reflexivity. Qed.
(** The word "count" is accepted in every constraint, but checking it ends the program. *)
Theorem C72_count_refuted : ~ (forall s t, parse_easy strtod the_prop_ctx s = Ok (Some t) -> forall L fuel w, exists b, propositional_checker L fuel the_prop_ctx w t = Ok b).
Proof.
  intros H. specialize (H (str "count(1, 2) == 2") (constraint "count(1, 2) == 2") ltac:(vm_compute; reflexivity) no_libm 0 (mkWorld [] [])).
  destruct H as (b & H). vm_compute in H. discriminate H.
Qed.
Print Assumptions C72_count_refuted.
(** Side by side is not a product. *)
Example C72_language_case : parse_easy strtod the_prop_ctx (str "2 x") = Ok None /\ match parse_easy strtod the_arith_ctx (str "2 x") with Ok (Some _) => True | _ => False end.
Proof. split; vm_compute; [reflexivity|exact Logic.I]. Qed.
