(** What the table command prints (C74). *)
From Coq Require Import Reals.
From Flocq Require Import Core.
From Coq Require Import List Ascii String NArith ZArith Bool Lia Arith.
From Coq.Floats Require Import SpecFloat.
From Verif Require Import M_Base M_StringUtil M_LinkedList M_Trie M_Tree M_Context M_Tokenizer M_Parser M_Printer M_Printf M_TreeUtil M_Match M_RuleParsing M_ArithCtx
  M_Double M_Eval M_Simplify M_Session M_Strtod M_Table M_TableOut
  S_Util S_Engine S_Parse S_Tree S_Match S_Session S_TableCmd S_Print S_Printf S_Eval S_Table S_TableApi S_TableOut
  L_StringUtil L_Tree P_Tree L_Context L_ArithCtx L_SetUp P_Parse L_SessionCtx L_Session L_SessionCmd L_SessionDef L_Reach L_SessionEx P_Session P_Simplify L_ParserInv L_Print L_PrintLex L_PrintParse P_Print P_TableCmd P_TableApi
  L_Float L_TableWf L_NamesKept L_TableOut.
Import ListNotations.
Open Scope string_scope.
Open Scope list_scope.
Open Scope nat_scope.
Open Scope res_scope.
Notation solid := L_TableOut.solid.

(** ** Names *)
Lemma word_solid : forall x, word x -> solid x.
Proof. intros x [N F]. split; auto. eapply Forall_impl; [|exact F]. intros c H. split; intros ->; unfold letter_char, in_range in H; cbn in H; lia. Qed.
Definition solidb (s : cstr) : bool := match s with [] => false | _ => forallb (fun c => negb (ceqb c S_Table.ESC) && negb (ceqb c LF)) s end.
Lemma solidb_ok : forall s, solidb s = true -> solid s.
Proof.
  intros s H. destruct s as [|c s]; [discriminate H|]. split; [discriminate|]. unfold solidb in H. rewrite forallb_forall in H. apply Forall_forall. intros d I. specialize (H d I).
  apply andb_true_iff in H. destruct H as [A B]. rewrite negb_true_iff in A, B. split; intros ->; discriminate.
Qed.
Lemma registry_solid : forallb (fun o => solidb (o_name o)) arith_registry = true. Proof. vm_compute. reflexivity. Qed.
Lemma session_names : forall L fuel strtod files s defs, session_of L fuel strtod files any_function s defs -> forall op, registered (ss_ctx s) op -> solid (o_name op).
Proof.
  intros L fuel sd files s defs R op H. pose proof (reach_inv _ _ _ _ _ _ _ R) as V. pose proof (i_funs _ _ V) as F. destruct (i_ctx _ _ V) as (C & S & _ & T).
  unfold registered in H. rewrite (lookup_crep _ _ _ _ C) in H. apply Ok_inj in H. apply reg_find_In in H. destruct H as [I _]. apply in_app_or in I. destruct I as [I|I].
  - pose proof registry_solid as K. rewrite forallb_forall in K. apply solidb_ok. exact (K op I).
  - apply in_map_iff in I. destruct I as (f & <- & If). rewrite Forall_forall in F. destruct (F f If) as (P & _ & W & N & _). apply word_solid. split; auto.
Qed.
(** ** The text of the expression *)
Section Exists.
Variable c : ctx.
Hypothesis SU : set_up c.
Hypothesis PC : printable_ctx c.
Lemma text_exists : forall fmt color t, arities_ok t -> (forall op, In op (operators_of t) -> registered c op) -> forall l r, exists ps, to_str fmt color t l r = Ok ps.
Proof.
  intros fmt color. induction t as [v k|x i k|op cs k IH] using node_ind'; intros A O l r; cbn [to_str]; eauto. cbn [arities_ok] in A. destruct A as [A1 A2]. rewrite all_Forall in A2.
  assert (R : registered c op) by (apply O; left; auto). pose proof (place_made c SU op R) as Md. unfold made in Md.
  assert (K : forall x, In x cs -> forall l r, exists ps, to_str fmt color x l r = Ok ps).
  { intros x I. rewrite Forall_forall in IH, A2. apply IH; auto. intros o Io. apply O. right. apply in_flat_map. eauto. }
  assert (W : forall x (b : bool) l r, In x cs -> exists ps, (if b then b <- to_str fmt color x false false ;; Ok (wrap_if true b) else to_str fmt color x l r) = Ok ps).
  { intros x [|] l' r' I; [destruct (K x I false false) as (ps & ->); cbn [rbind]; eauto|auto]. }
  clear IH. destruct (o_place op) eqn:Pl.
  - destruct cs as [|c0 cs]; [destruct A1 as [A1|A1]; rewrite Md in A1; discriminate A1|].
    assert (N : printf_no_args (o_name op) = Ok (o_name op)). { apply printf_plain. destruct PC as (_ & _ & Pr & _). unfold registered in R. rewrite Pl in R. apply (Pr _ _ R). }
    rewrite N. cbn [rbind]. match goal with |- exists _, rbind ?x _ = _ => assert (X : exists b, x = Ok b) by (apply W; left; auto) end. destruct X as (b & ->). cbn [rbind]. eauto.
  - destruct Md as [Md _]. destruct cs as [|c0 [|c1 cs]]; try (destruct A1 as [A1|A1]; rewrite Md in A1; discriminate A1).
    match goal with |- exists _, rbind ?x _ = _ => assert (X : exists b, x = Ok b) by (apply W; left; auto) end. destruct X as (a & ->). cbn [rbind].
    match goal with |- exists _, rbind ?x _ = _ => assert (X : exists b, x = Ok b) by (apply W; right; left; auto) end. destruct X as (b & ->). cbn [rbind]. eauto.
  - destruct Md as [Md _]. destruct cs as [|c0 cs]; [destruct A1 as [A1|A1]; rewrite Md in A1; discriminate A1|].
    match goal with |- exists _, rbind ?x _ = _ => assert (X : exists b, x = Ok b) by (apply W; left; auto) end. destruct X as (b & ->). cbn [rbind]. eauto.
  - destruct (arity_zero (o_arity op)); eauto.
    match goal with |- exists _, rbind ?x _ = _ => assert (X : exists b, x = Ok b) end.
    { clear - K. induction cs as [|c0 cs IHc]; eauto. destruct cs as [|c1 cs]; [apply K; left; auto|]. destruct (K c0 (or_introl eq_refl) false false) as (a & ->). cbn [rbind].
      destruct IHc as (b & E); [intros x I; apply K; right; auto|]. cbn in E |- *. rewrite E. cbn [rbind]. eauto. }
    destruct X as (b & ->). cbn [rbind]. eauto.
Qed.
End Exists.
(** *** Colours *)
Definition shows (a q : cstr) : Prop := forall b, seen_text false (a ++ b) = q ++ seen_text false b.
Lemma shows_app : forall a q a' q', shows a q -> shows a' q' -> shows (a ++ a') (q ++ q').
Proof. intros a q a' q' A B b. rewrite <- !app_assoc, A, B. reflexivity. Qed.
Lemma shows_plain : forall n, Forall (fun c => c <> S_Table.ESC /\ c <> LF) n -> shows n n.
Proof. intros n F b. induction F as [|c n [Nc _] F IH]; auto. cbn [app seen_text]. rewrite IH. destruct (Ascii.eqb_spec c "027"); [contradiction|reflexivity]. Qed.
Lemma shows_color : forall c n, c = VAR_COLOR \/ c = CONST_COLOR -> solid n -> shows (c ++ n ++ COL_RESET) n.
Proof.
  intros c n C [_ F] b. assert (X : forall s, seen_text false (c ++ s) = seen_text false s) by (intros s; destruct C as [->| ->]; reflexivity). rewrite <- !app_assoc, X. rewrite (shows_plain n F). reflexivity.
Qed.
Lemma shows_wrap : forall b ps qs, shows (List.concat ps) (List.concat qs) -> shows (List.concat (wrap_if b ps)) (List.concat (wrap_if b qs)).
Proof.
  intros [|] ps qs C; auto. unfold wrap_if. rewrite !concat_app. destruct literal_solid as (A & B & _). apply shows_app; [apply shows_plain; apply A|]. apply shows_app; auto. apply shows_plain. apply B.
Qed.
Lemma text_shows : forall fmt, (forall v, solid (fmt v)) -> forall t l r ps qs, Forall (fun op => solid (o_name op)) (operators_of t) -> Forall solid (var_names t) ->
  to_str fmt true t l r = Ok ps -> to_str fmt false t l r = Ok qs -> shows (List.concat ps) (List.concat qs).
Proof.
  intros fmt FS. destruct literal_solid as (Po & Pc & Cm & Bl).
  induction t as [v k|x i k|op cs k IH] using node_ind'; intros l r ps qs O V E E'; cbn [operators_of var_names to_str] in *.
  - injection E as <-. injection E' as <-. cbn [colored List.concat]. rewrite !app_nil_r. apply shows_color; auto.
  - injection E as <-. injection E' as <-. cbn [colored List.concat]. rewrite !app_nil_r. apply shows_color; auto. inversion V; auto.
  - inversion O as [|? ? On Oc]; subst. apply Forall_flat_map in Oc, V.
    assert (K : forall c, In c cs -> forall l r ps qs, to_str fmt true c l r = Ok ps -> to_str fmt false c l r = Ok qs -> shows (List.concat ps) (List.concat qs)).
    { intros c I l' r' ps' qs'. rewrite Forall_forall in IH, Oc, V. apply IH; auto. }
    clear IH O Oc V.
    assert (W : forall c (b : bool) l r ps qs, In c cs -> (if b then b <- to_str fmt true c false false ;; Ok (wrap_if true b) else to_str fmt true c l r) = Ok ps ->
      (if b then b <- to_str fmt false c false false ;; Ok (wrap_if true b) else to_str fmt false c l r) = Ok qs -> shows (List.concat ps) (List.concat qs)).
    { intros c [|] l' r' ps' qs' I E1 E2; [|eauto]. destruct (to_str fmt true c false false) as [b| |] eqn:Eb; cbn [rbind] in E1; try discriminate E1. injection E1 as <-.
      destruct (to_str fmt false c false false) as [b'| |] eqn:Eb'; cbn [rbind] in E2; try discriminate E2. injection E2 as <-. apply (shows_wrap true). eauto. }
    destruct (o_place op).
    + destruct cs as [|c0 cs]; [discriminate E|]. destruct (printf_no_args (o_name op)) as [nm| |] eqn:En; cbn [rbind] in E, E'; try discriminate E.
      match type of E with rbind ?x _ = _ => destruct x as [body| |] eqn:Eb end; cbn [rbind] in E; try discriminate E. injection E as <-.
      match type of E' with rbind ?x _ = _ => destruct x as [body'| |] eqn:Eb' end; cbn [rbind] in E'; try discriminate E'. injection E' as <-.
      apply shows_wrap. cbn [List.concat]. apply shows_app; [|eapply W; [|exact Eb|exact Eb']; left; auto].
      destruct On as [N F]. destruct (printf_solid _ _ _ (le_n _) F En) as [A B]. apply shows_plain. auto.
    + destruct cs as [|c0 [|c1 cs]]; try discriminate E.
      match type of E with rbind ?x _ = _ => destruct x as [a| |] eqn:Ea end; cbn [rbind] in E; try discriminate E.
      match type of E with rbind ?x _ = _ => destruct x as [b| |] eqn:Eb end; cbn [rbind] in E; try discriminate E. injection E as <-.
      match type of E' with rbind ?x _ = _ => destruct x as [a'| |] eqn:Ea' end; cbn [rbind] in E'; try discriminate E'.
      match type of E' with rbind ?x _ = _ => destruct x as [b'| |] eqn:Eb' end; cbn [rbind] in E'; try discriminate E'. injection E' as <-.
      rewrite !concat_app. apply shows_app; [eapply W; [|exact Ea|exact Ea']; left; auto|]. apply shows_app; [|eapply W; [|exact Eb|exact Eb']; right; left; auto].
      destruct (is_letter (hd NUL (o_name op))); cbn [List.concat]; rewrite !app_nil_r; [|apply shows_plain; apply On]. apply shows_plain. constructor; [split; discriminate|]. apply Forall_app. split; [apply On|]. repeat constructor; discriminate.
    + destruct cs as [|c0 cs]; [discriminate E|]. match type of E with rbind ?x _ = _ => destruct x as [body| |] eqn:Eb end; cbn [rbind] in E; try discriminate E. injection E as <-.
      match type of E' with rbind ?x _ = _ => destruct x as [body'| |] eqn:Eb' end; cbn [rbind] in E'; try discriminate E'. injection E' as <-.
      apply shows_wrap. rewrite !concat_app. cbn [List.concat]. rewrite app_nil_r. apply shows_app; [|apply shows_plain; apply On]. eapply W; [|exact Eb|exact Eb']. left; auto.
    + destruct (arity_zero (o_arity op)); [injection E as <-; injection E' as <-; cbn [List.concat]; rewrite app_nil_r; apply shows_plain; apply On|].
      match type of E with rbind ?x _ = _ => destruct x as [args| |] eqn:Ea end; cbn [rbind] in E; try discriminate E. injection E as <-.
      match type of E' with rbind ?x _ = _ => destruct x as [args'| |] eqn:Ea' end; cbn [rbind] in E'; try discriminate E'. injection E' as <-.
      cbn [app List.concat]. rewrite !concat_app. cbn [List.concat]. apply shows_app; [apply shows_plain; apply On|]. apply shows_app; [apply shows_plain; apply Po|].
      apply shows_app; [|apply shows_plain; rewrite app_nil_r; apply Pc]. clear On W. revert args args' Ea Ea'. induction cs as [|c cs IHc]; intros args args' Ea Ea'; [injection Ea as <-; injection Ea' as <-; intros b; reflexivity|]. destruct cs as [|c' cs].
      * eapply K; [|exact Ea|exact Ea']. left; auto.
      * destruct (to_str fmt true c false false) as [a| |] eqn:Ec; cbn [rbind] in Ea; try discriminate Ea.
        destruct (to_str fmt false c false false) as [a'| |] eqn:Ec'; cbn [rbind] in Ea'; try discriminate Ea'.
        match type of Ea with rbind ?x _ = _ => destruct x as [b| |] eqn:Eb end; cbn [rbind] in Ea; try discriminate Ea. injection Ea as <-.
        match type of Ea' with rbind ?x _ = _ => destruct x as [b'| |] eqn:Eb' end; cbn [rbind] in Ea'; try discriminate Ea'. injection Ea' as <-.
        rewrite !concat_app. change (List.concat [str ","]) with (str ","). apply shows_app; [eapply K; [|exact Ec|exact Ec']; left; auto|]. apply shows_app; [apply shows_plain; apply Cm|].
        apply IHc; auto. intros d I. apply K. right. auto.
Qed.

(** ** The variables of the simplified expression *)
Section Reached.
Variable L : libm.
Variable fuel : nat.
Variable strtod : cstr -> option double.
Variable files : cstr -> option (list ascii).
Notation reached := (session_of L fuel strtod files any_function).
Definition named_after (so : option simp) : Prop := forall sm, so = Some sm -> L_NamesKept.tame word sm.
Lemma loaded_named : forall g pc file sm n, set_up g -> init_simplification strtod g pc file = Ok (ILoaded sm n) -> L_NamesKept.tame word sm.
Proof.
  intros g pc file sm n SU E a Ea. unfold init_simplification in E. revert E. generalize (str "x'") (str "deriv(x, z)") (str "deriv(x, y) WHERE type(y) != VAR") (repeat (@nil rule) NUM_RULESETS). intros i1 i2 i3 rs0 E.
  destruct file as [content|]; [|discriminate E].
  destruct (parse_rulesets_from_file strtod pc content rs0) as [[(sets, k)|]| |]; cbn [rbind] in E; try discriminate E. destruct (k =? NUM_RULESETS); [|discriminate E].
  destruct (parse_easy strtod g i1) as [x| |]; cbn [rbind] in E; try discriminate E.
  destruct (parse_easy strtod g i2) as [a'| |] eqn:P; cbn [rbind] in E; try discriminate E.
  destruct (parse_pattern strtod pc i3) as [[m|]| |]; cbn [rbind] in E; try discriminate E. destruct x as [t|]; [|discriminate E]. injection E as <- _. cbn [s_after] in Ea. subst a'.
  unfold parse_easy in P. destruct (parse_input strtod g i2) as [(ts & [t'|? ?|])| |] eqn:Pi; cbn [rbind] in P; try discriminate P. injection P as ->.
  pose proof (L_PrintParse.parsed_vars strtod g SU _ _ _ Pi) as F. eapply Forall_impl; [|exact F]. intros v [_ W]. exact W.
Qed.
Lemma init_named : forall files0 path rand s g, get_arith_ctx = Ok g -> set_up g -> init_commands strtod files0 path rand = Ok s -> named_after (ss_simp s).
Proof.
  intros files0 path rand s g. unfold init_commands. generalize get_arith_ctx init_propositional_ctx. intros x y -> SU E. cbn [rbind] in E.
  destruct y as [pc| |]; cbn [rbind] in E; try discriminate E. destruct (init_simplification strtod g pc (files0 path)) as [r| |] eqn:Ei; cbn [rbind] in E; try discriminate E.
  apply Ok_inj in E. subst s. cbn [ss_simp]. intros sm Es. destruct r as [| |sm' n]; try discriminate Es. injection Es as ->. eapply loaded_named; eauto.
Qed.
Theorem reach_named : forall s defs, reached s defs -> named_after (ss_simp s).
Proof.
  intros s defs R. induction R as [files0 path rand s E|s defs d l s' o f R IH H NB E D Fc|s defs d l s' o R IH H NB E|s defs d s' o b R IH E|s d1 f d2 d l s' o R IH H N Sk M E|s defs d l s' o R IH H N E|s defs k d l s' o b R IH H Ik E|s defs path s' o b R IH E].
  - exact (init_named _ _ _ _ _ (proj1 arith_ctx_ok) (proj1 (proj2 sctx_init)) E).
  - pose proof (reach_inv _ _ _ _ _ _ _ R) as V. rewrite exec_definition in E by auto. destruct (accepted_defines _ _ _ _ _ _ _ _ V H NB E) as (f0 & _ & _ & _ & _ & _ & Es & _). rewrite Es. exact IH.
  - pose proof (reach_inv _ _ _ _ _ _ _ R) as V. rewrite exec_definition in E by auto. destruct (rejected_keeps _ _ _ _ _ _ _ _ V H NB E) as (_ & (_ & _ & Es) & _). rewrite Es. exact IH.
  - pose proof (reach_inv _ _ _ _ _ _ _ R) as V. rewrite exec_clear in E by apply clear_kind. destruct (clear_ok _ _ V) as (s2 & C & _ & _ & Es & _). unfold cmd_clear_exec in E. change (streqb CLEAR_COMMAND (str "clear")) with true in E. cbn iota in E.
    rewrite C in E. cbn [of_res sbind] in E. injection E as <- _ _. rewrite Es. exact IH.
  - pose proof (reach_inv _ _ _ _ _ _ _ R) as V. rewrite exec_clear in E by auto. destruct (clear_named _ _ l V (not_just_clear _ N)) as [(e1 & g & e2 & s2 & Ed & En & Er & _ & (_ & Es & _) & _)|[A Er]].
    + rewrite E in Er. injection Er as <- _. rewrite Es. exact IH.
    + rewrite E in Er. discriminate Er.
  - pose proof (reach_inv _ _ _ _ _ _ _ R) as V. rewrite exec_clear in E by auto. destruct (clear_named _ _ l V (not_just_clear _ N)) as [(e1 & g & e2 & s2 & Ed & En & Er & _)|[A Er]].
    + rewrite E in Er. discriminate Er.
    + rewrite E in Er. injection Er as <- _. auto.
  - destruct Ik as [<-|[<-|[<-|[]]]].
    + rewrite exec_help in E by auto. injection E as <- _ _. auto.
    + rewrite exec_table in E by auto. destruct (proj1 (table_both L fuel strtod s l) _ _ _ E) as (w & ->). exact IH.
    + rewrite exec_evaluation in E by auto. destruct (proj1 (eval_both L fuel strtod s l) _ _ _ E) as (w & ->). exact IH.
  - pose proof (proj1 (proj2 (i_ctx _ _ (reach_inv _ _ _ _ _ _ _ R)))) as SU. unfold load_simplification in E. apply of_res_ok in E. destruct E as ([| |sm n] & Ei & E); injection E as <- _ _; intros sm' Es; cbn in Es; try discriminate Es.
    injection Es as <-. eapply loaded_named; eauto.
Qed.
Lemma simplified_named : forall s defs ts t s1 e, reached s defs -> Forall word (var_names t) -> arith_simplify L fuel s ts t = Done (Ok (s1, Some e)) -> Forall word (var_names e).
Proof.
  intros s defs ts t s1 e R F E. unfold arith_simplify in E. destruct (apply_ruleset fuel (fun _ => Ub) (ss_funs s) 0 t) as [[(t1, k)|]| |] eqn:A; cbn [of_res sbind] in E; try discriminate E.
  apply (L_NamesKept.ruleset_good word) in A; [|exact F].
  destruct (simplify L fuel (ss_ctx s) (ss_pc s) (ss_simp s) (ss_world s) t1) as [[(w & t2 & er)| |]|] eqn:Si; cbn [sbind] in E; try discriminate E.
  pose proof (L_NamesKept.simplify_good word _ _ _ _ _ _ _ _ _ _ (reach_named _ _ R) A Si) as G2. destruct er as [(er & p)|].
  - match type of E with match ?x with _ => _ end = _ => destruct x end; discriminate E.
  - unfold sret in E. injection E as _ <-. exact G2.
Qed.
End Reached.

(** ** The command *)
Lemma texts_read : forall l texts, no_nul l -> table_texts l texts ->
  strip_all (rev TABLE_COMMAND) (str_split (skipn (List.length TABLE_COMMAND) l) [str ";"; str ";"; str ";"; FOLD_KEYWORD; str ";"]) = Ok texts.
Proof.
  intros l texts Hn (rest & parts & -> & Sp & St). change (skipn (List.length TABLE_COMMAND) (str "table " ++ rest)) with rest.
  change FOLD_KEYWORD with (str " fold "). rewrite <- (split_unique _ _ _ Sp _ (str_split_spec _ _)).
  assert (Nr : no_nul rest) by (intro X; apply Hn; apply in_or_app; auto). pose proof (split_nul _ _ _ Sp Nr) as Np.
  destruct (strip_all_spec parts 1 "e"%char (map (fun c => c) (str "lbat")) ltac:(discriminate) Np) as (args & Sa & F). change (blanks 1 ++ "e"%char :: map (fun c => c) (str "lbat")) with (rev TABLE_COMMAND) in Sa.
  rewrite <- (F2_stripped_unique _ _ _ St F) in Sa. exact Sa.
Qed.
Lemma reads_first : forall L fuel sd s texts s' e fold a b c i, reads_table L fuel sd s texts s' e fold a b c i ->
  exists a0 rest s1, texts = a0 :: rest /\ understood L fuel sd s a0 s1 e /\ exists x, incl (var_names e) [x].
Proof.
  intros L fuel sd s texts s' e fold a b c i R. inversion R as [? ? ? ? s1 ? ? ? ? ? ? ? ? ? ? ? ? ? U One|? ? ? ? ? ? s7 ? ? ? ? ? ? ? ? ? ? R']; subst; [eauto 10|].
  inversion R' as [? ? ? ? s1 ? ? ? ? ? ? ? ? ? ? ? ? ? U One|]; subst. eauto 10.
Qed.
Lemma rows_only : forall (x : nat -> double) v n, filter is_row (map (fun k => SRow (S k) (x k) (v k)) (List.seq 0 n)) = map (fun k => SRow (S k) (x k) (v k)) (List.seq 0 n).
Proof. intros x v n. generalize 0. induction n as [|n IH]; intros k; cbn; auto. rewrite IH. reflexivity. Qed.
Lemma calls_cells : forall interactive text vars o,
  table_calls interactive (str " " ++ text ++ str " ") vars o = grid_calls (cells interactive (hd_error vars) text o ++ [[]]) ++ alignment_call [HRight; HRight; HRight].
Proof.
  intros interactive text vars o. rewrite grid_calls_app. unfold table_calls, cells. change (alignment_call [HRight; HRight; HRight]) with [CAlignments 3 (Some [HRight; HRight; HRight]) None]. rewrite app_assoc. f_equal.
  rewrite flat_map_app. f_equal.
  - destruct interactive; [|reflexivity]. destruct vars; reflexivity.
  - induction o as [|e o IH]; auto. cbn [flat_map filter]. rewrite IH. destruct e as [|t|i x v|v|]; try reflexivity. cbn [is_row map flat_map shown_calls row_cells]. destruct interactive, v; reflexivity.
Qed.
Definition calm_cell (c : option cstr) : Prop := match c with Some s => calm s | None => True end.
Lemma calm_padded : forall s, calm s -> calm (str " " ++ s ++ str " ").
Proof. intros s C. destruct literal_solid as (_ & _ & _ & B). apply (calm_mid [] (str " ")); auto using calm_nil. rewrite <- (app_nil_r (str " ")). apply calm_mid; auto using calm_nil. Qed.
Lemma cells_calm : forall interactive var text o, calm text -> match var with Some x => word x | None => True end ->
  forall r, In r (cells interactive var text o) -> r <> [] /\ List.length r <= 3 /\ forall c, In c r -> calm_cell c.
Proof.
  intros interactive var text o Ct Cv r I. unfold cells in I. apply in_app_or in I. destruct I as [I|I].
  - destruct interactive; [|destruct I]. destruct I as [<-|[]]. split; [discriminate|]. split; [cbn; lia|]. intros c [<-|[<-|[<-|[]]]]; [exact Logic.I| |apply calm_padded; exact Ct].
    destruct var as [x|]; [|exact Logic.I]. assert (S : solid (str " " ++ x ++ str " ")). { split; [discriminate|]. constructor; [split; discriminate|]. apply Forall_app. split; [apply (word_solid x Cv)|]. repeat constructor; discriminate. }
    pose proof (calm_color VAR_COLOR (str " " ++ x ++ str " ") (or_introl eq_refl) S) as C. unfold calm_cell. rewrite <- !app_assoc in C. exact C.
  - apply in_map_iff in I. destruct I as (e & <- & I). apply filter_In in I. destruct I as [_ I]. destruct e as [|t|i x v|v|]; try discriminate I. cbn [row_cells].
    assert (K : forall c, In c ((if interactive then [padded (printf_zu i)] else []) ++ [padded (printf_f x); padded (match v with Some r => printf_f r | None => str "Error" end)]) -> calm_cell c).
    { intros c Ic. assert (X : exists s, c = padded s /\ solid s).
      { apply in_app_or in Ic. destruct Ic as [Ic|Ic]; [destruct interactive; [|destruct Ic]; destruct Ic as [<-|[]]; eexists; split; [reflexivity|apply whole_solid]|].
        destruct Ic as [<-|[<-|[]]]; eexists; (split; [reflexivity|]); [apply printf_f_solid|]. destruct v; [apply printf_f_solid|]. split; [discriminate|]. repeat constructor; discriminate. }
      destruct X as (s & -> & S). apply padded_calm. exact S. }
    split; [destruct interactive; discriminate|]. split; [destruct interactive; cbn; lia|exact K].
Qed.
Lemma maximum_one : forall l, (forall a, In a l -> a <= 1) -> maximum l <= 1.
Proof. induction l as [|a l IH]; intros H; cbn; [lia|]. assert (a <= 1) by (apply H; left; auto). assert (maximum l <= 1) by (apply IH; intros b I; apply H; right; auto). unfold maximum in *. lia. Qed.
Lemma calm_height : forall r, (forall c, In c r -> calm_cell c) -> row_height r <= 1.
Proof.
  intros r H. unfold row_height. apply maximum_one. intros a I. apply in_map_iff in I. destruct I as (c & <- & I). specialize (H c I). destruct c as [s|]; [|cbn; lia]. cbn [cell_lines]. rewrite one_line by apply H. cbn. lia.
Qed.
Lemma sum_le : forall (f : list (option cstr) -> nat) M, (forall r, In r M -> f r <= 1) -> fold_right Nat.add 0 (map f M) <= List.length M.
Proof. induction M as [|r M IH]; intros H; cbn; [lia|]. assert (f r <= 1) by (apply H; left; auto). assert (fold_right Nat.add 0 (map f M) <= List.length M) by (apply IH; intros q I; apply H; right; auto). lia. Qed.
Lemma filter_len : forall A (f : A -> bool) l, List.length (filter f l) <= List.length l.
Proof. induction l as [|a l IH]; cbn; [lia|]. destruct (f a); cbn; lia. Qed.
Lemma cells_small : forall i v t o, List.length (cells i v t o) <= S (List.length o).
Proof. intros i v t o. unfold cells. rewrite app_length, map_length. pose proof (filter_len _ is_row o). destruct i; cbn; lia. Qed.
Lemma no_cells : exists t t' , exec_calls get_empty_table (alignment_call [HRight; HRight; HRight]) = Ok t /\ fprint_table t = Done (Ok (t', [])).
Proof. eexists. eexists. split; [vm_compute; reflexivity|]. vm_compute. reflexivity. Qed.
(** The calls of the table library *)
Lemma table_drawn : forall interactive text vars o, calm text -> match hd_error vars with Some x => word x | None => True end -> 2 * List.length o + 4 < Nat.pow 2 31 ->
  exists t t' out, exec_calls get_empty_table (table_calls interactive (str " " ++ text ++ str " ") vars o) = Ok t /\ fprint_table t = Done (Ok (t', out)) /\
    map glyphs out = grid_picture [HRight; HRight; HRight] (cells interactive (hd_error vars) text o).
Proof.
  intros interactive text vars o Ct Cv Sm. rewrite calls_cells. rewrite <- picture_end. pose proof (cells_calm interactive (hd_error vars) text o Ct Cv) as C.
  pose proof (cells_small interactive (hd_error vars) text o) as Sz. set (M := cells interactive (hd_error vars) text o) in *. clearbody M.
  destruct M as [|r M0] eqn:EM.
  - cbn [app grid_calls]. change (row_calls [] ++ alignment_call [HRight; HRight; HRight]) with (alignment_call [HRight; HRight; HRight]). destruct no_cells as (t & t' & E1 & E2). exists t, t', []. auto.
  - rewrite <- EM in *. apply C69_grid.
    + intros q I. apply in_app_or in I. destruct I as [I|[<-|[]]]; [|split; [cbn; lia|intros c []]]. destruct (C q I) as (_ & Le & K). split; [unfold TABLE_MAX_COLS; lia|]. intros c Ic. specialize (K c Ic). destruct c; [apply calm_tidy; exact K|exact Logic.I].
    + exists r. split; [apply in_or_app; left; rewrite EM; left; auto|]. apply (C r). rewrite EM. left. auto.
    + cbn. unfold TABLE_MAX_COLS. lia.
    + rewrite app_length. cbn [List.length]. eapply Nat.le_lt_trans; [|exact Sm].
      assert (B : fold_right Nat.add 0 (map row_height (M ++ [[]])) <= List.length (M ++ [[]])).
      { apply sum_le. intros q I. apply in_app_or in I. destruct I as [I|[<-|[]]]; [apply calm_height; apply (C q I)|cbn; lia]. }
      rewrite app_length in B. cbn [List.length] in B. lia.
Qed.

(** ** C74 *)
(** For every session and line: if the table command succeeds with the rows [o] (those of C47), the table printed has the cells of
    these rows, all aligned to the right, under a header (only for terminals) with the variable and the expression as it was typed. *)
Theorem C74_table_printed : forall L fuel strtod files s defs d interactive l texts s' o,
  session_of L fuel strtod files any_function s defs -> handles KTable l -> no_nul l -> table_texts l texts ->
  exec_command L fuel strtod files (S d) s l = Done (Ok (Did s' o true)) -> 2 * List.length o + 4 < Nat.pow 2 31 ->
  exists typed rest ts raw e s1 text plain out line,
    texts = typed :: rest /\ parse_input strtod (ss_ctx s) typed = Ok (ts, PTree raw) /\ understood L fuel strtod s typed s1 e /\
    tree_to_str printf_g true raw = Ok text /\ tree_to_str printf_g false raw = Ok plain /\ seen_text false text = plain /\
    cmd_table_shows L fuel strtod interactive s l = Done (Ok (Some (out, line))) /\
    map glyphs out = grid_picture [HRight; HRight; HRight] (cells interactive (hd_error (var_names e)) text o) /\
    (forall f, In (SFold f) o -> line = str "Fold result: " ++ printf_g f ++ [LF]) /\ ((forall f, ~ In (SFold f) o) -> line = []).
Proof.
  intros L fuel sd files s defs d interactive l texts s' o R H Hn T E Sm. pose proof E as E0. rewrite (exec_table _ _ _ _ _ _ _ H) in E0.
  rewrite (C47_table_rows L fuel sd files d s l texts s' o H Hn T) in E. destruct E as (s9 & e & fold & start & stop & step & init & w' & n & rows & folded & Rd & Tb & _ & Out).
  destruct (reads_first _ _ _ _ _ _ _ _ _ _ _ _ Rd) as (typed & rest & s1 & Et & U & One). pose proof U as U0. unfold understood, arith_parse in U0.
  destruct (arith_parse_raw sd s typed) as [(ts & [raw|])| |] eqn:Er; cbn [of_res sbind] in U0; try discriminate U0.
  assert (P : parse_input sd (ss_ctx s) typed = Ok (ts, PTree raw)).
  { unfold arith_parse_raw in Er. destruct (parse_input sd (ss_ctx s) typed) as [(ts' & [t|? ?|])| |]; cbn [rbind] in Er; try discriminate Er.
    - injection Er as -> ->. reflexivity.
    - match type of Er with rbind ?x _ = _ => destruct x end; discriminate Er. }
  destruct (session_ctx _ _ _ _ _ _ R) as (SU & PC & RC). pose proof (C17_arities_respected _ _ _ _ _ P) as A.
  assert (Ops : forall op, In op (operators_of raw) -> registered (ss_ctx s) op) by (exact (L_PrintParse.parsed_registered sd (ss_ctx s) SU _ _ _ P)).
  destruct (text_exists _ SU PC printf_g true raw A Ops false false) as (ps & Ps). destruct (text_exists _ SU PC printf_g false raw A Ops false false) as (qs & Qs).
  assert (Fo : Forall (fun op => solid (o_name op)) (operators_of raw)) by (apply Forall_forall; intros op I; apply (session_names _ _ _ _ _ _ R); auto).
  assert (Fw : Forall word (var_names raw)). { pose proof (L_PrintParse.parsed_vars sd _ SU _ _ _ P) as F. eapply Forall_impl; [|exact F]. intros v [_ W]. exact W. }
  assert (Fv : Forall solid (var_names raw)) by (eapply Forall_impl; [|exact Fw]; apply word_solid).
  pose proof (text_calm printf_g printf_g_solid raw false false ps Fo Fv Ps) as Ct.
  pose proof (simplified_named _ _ _ _ _ _ _ _ _ _ R Fw U0) as Fe.
  assert (Hd : hd_error (firsts (var_names e)) = hd_error (var_names e)).
  { destruct One as (x & One). destruct (C26_firsts (var_names e)) as [Nd Fi]. destruct (var_names e) as [|y ys]; [reflexivity|]. assert (y = x) as -> by (destruct (One y (or_introl eq_refl)) as [<-|[]]; auto).
    destruct (firsts (x :: ys)) as [|z zs]; [exfalso; apply (proj2 (Fi x)); left; auto|]. assert (z = x) as -> by (destruct (One z) as [<-|[]]; [apply Fi; left; auto|auto]). reflexivity. }
  destruct (table_drawn interactive (List.concat ps) (firsts (var_names e)) o Ct) as (t & t' & out & C1 & C2 & C3); [|exact Sm|].
  { rewrite Hd. destruct (var_names e); [exact Logic.I|]. inversion Fe; auto. }
  exists typed, rest, ts, raw, e, s1, (List.concat ps), (List.concat qs), out, (fold_text o). split; [exact Et|]. split; [exact P|]. split; [exact U|].
  split. { unfold tree_to_str, tree_pieces. rewrite Ps. reflexivity. }
  split. { unfold tree_to_str, tree_pieces. rewrite Qs. reflexivity. }
  split. { pose proof (text_shows printf_g printf_g_solid raw false false ps qs Fo Fv Ps Qs []) as X. rewrite !app_nil_r in X. exact X. }
  split. { unfold cmd_table_shows. rewrite E0. cbn [sbind]. unfold table_header. rewrite (texts_read l texts Hn T), Et. cbn [of_res sbind hd]. rewrite Er. cbn [of_res sbind]. unfold tree_to_str, tree_pieces. rewrite Ps. cbn [rbind of_res sbind].
    rewrite U0. cbn [sbind]. pose proof (C26_list_variables e 1) as Lv. destruct (list_variables e 1) as [[e' vs] k]. destruct Lv as [Lv _].
    destruct Lv as (-> & -> & pos & -> & _); [apply one_variable; auto|]. unfold sret at 1. cbn [sbind]. rewrite C1. cbn [of_res sbind]. rewrite C2. reflexivity. }
  split; [rewrite <- Hd; exact C3|].
  assert (Fr : fold_text rows = [] /\ forall f, ~ In (SFold f) rows).
  { destruct Tb as (x & v & _ & _ & _ & _ & _ & _ & _ & _ & _ & _ & _ & _ & ->). clear. split.
    - unfold fold_text. induction (List.seq 0 n) as [|k ks IH]; auto.
    - intros f I. apply in_map_iff in I. destruct I as (k & I & _). discriminate I. }
  destruct Fr as [Fr Fn]. unfold table_out in Out. destruct fold as [f0|]; destruct Out as [_ ->].
  - assert (Ff : fold_text (rows ++ [SFold folded]) = str "Fold result: " ++ printf_g folded ++ [LF]). { unfold fold_text in *. rewrite flat_map_app, Fr. cbn [flat_map app]. apply app_nil_r. }
    rewrite Ff. split.
    + intros f I. apply in_app_or in I. destruct I as [I|[I|[]]]; [destruct (Fn f I)|]. injection I as <-. reflexivity.
    + intros N. destruct (N folded). apply in_or_app. right. left. reflexivity.
  - rewrite Fr. split; [|auto]. intros f I. destruct (Fn f I).
Qed.
(** What stands in the cells: numbers with ten places behind the point, within half a unit of the last, and the numbers of the rows. *)
Theorem C74_numbers : (forall v a, number v a -> ten_places (printf_f v) v a) /\ (forall i, proper_numeral (printf_zu i) /\ number_of (printf_zu i) = Z.of_nat i).
Proof. split; [exact printf_f_value|]. intros i. apply whole_value. lia. Qed.

(** table x*x ; 1 ; 4 ; 2 fold x+y ; 0 and table 1/x-g(x) ; -1 ; 1 ; 0.5, where g(x)=x+1 is defined *)
Definition seen_lines (r : step (option (list (list seg) * cstr))) : list string :=
  match r with
  | Done (Ok (Some (out, line))) => map (fun l => string_of_list_ascii (seen_text false (flat_map (fun g => match g with Char c => [c] | Line _ _ => [] end) (glyphs l)))) out ++ [string_of_list_ascii line]
  | _ => []
  end.
Definition C74_lines (interactive : bool) (l : string) : list string := seen_lines (cmd_table_shows no_libm 20 strtod interactive (state C38_session) (str l)).
Example C74_case : session_of no_libm 20 strtod no_files any_function (state C38_session) (functions C38_session) /\
  show_like (C47_rows (exec_command no_libm 20 strtod no_files 1 (state C38_session) (str "table x*x ; 1 ; 4 ; 2 fold x+y ; 0"))) ([(1, 1%Z, 1%Z); (2, 3%Z, 9%Z)], 10%Z) = true /\
  C74_lines true "table x*x ; 1 ; 4 ; 2 fold x+y ; 0" =
    ["               x           x*x ";
     " 1  1.0000000000  1.0000000000 ";
     " 2  3.0000000000  9.0000000000 ";
     "Fold result: 10" ++ String LF ""]%string /\
  C74_lines false "table 1/x-g(x) ; -1 ; 1 ; 0.5" =
    [" -1.0000000000  -1.0000000000 ";
     " -0.5000000000  -2.5000000000 ";
     "  0.0000000000          Error ";
     "  0.5000000000   0.5000000000 ";
     "  1.0000000000  -1.0000000000 ";
     ""]%string.
Proof. split; [apply bare_reached; exact C38_lives|]. split; [vm_compute; reflexivity|]. split; vm_compute; reflexivity. Qed.
Example C74_case_number : number (of_Z 3) 3 /\ printf_f (of_Z 3) = str "3.0000000000" /\ printf_zu 120 = str "120".
Proof. split; [apply of_Z_Z; unfold S_Eval.small; lia|]. split; vm_compute; reflexivity. Qed.

Print Assumptions C74_table_printed.
Print Assumptions C74_numbers.
