(** Computed sessions, for examples and counterexamples. *)
From Coq Require Import List Ascii String NArith ZArith Bool Lia Arith Permutation.
From Verif Require Import M_Base M_StringUtil M_LinkedList M_Trie M_Tree M_Context M_Tokenizer M_Parser M_TreeUtil M_Match M_RuleParsing M_ArithCtx
  M_Double M_Eval M_Simplify M_Session
  S_Util S_Engine S_Parse S_Tree S_Match S_Session L_StringUtil L_LinkedList L_Trie L_Tokenizer L_Context P_Context L_ArithCtx L_SetUp L_Lex
  L_Tree L_Match L_MatchRule L_RuleParsing P_Parse L_Expand L_SessionCtx L_OpsKept L_Session L_SessionDef L_SessionCmd L_Reach L_SessionFun M_Strtod M_ShippedRules.
Import ListNotations.
Open Scope list_scope.
Open Scope nat_scope.
Open Scope res_scope.


Definition calc_op (op : operator) : bool :=
  match nth_error arith_ops (o_id op) with Some b => streqb (o_name b) (o_name op) && placement_eqb (o_place b) (o_place op) | None => false end.
Definition own_ops (sm : simp) : bool :=
  forallb (fun rs => forallb (fun r => forallb calc_op (operators_of (r_after r))) rs) (s_rulesets sm) &&
  match s_after sm with Some a => forallb calc_op (operators_of a) | None => true end.
Lemma calc_op_ok : forall op, calc_op op = true -> calculator_operator op.
Proof.
  intros op. unfold calc_op, calculator_operator. generalize arith_ops. intros l H. destruct (nth_error l (o_id op)) as [b|] eqn:E; [|discriminate H].
  apply andb_true_iff in H. destruct H as [H1 H2]. exists b. split; auto. split. { apply streqb_eq. auto. } revert H2. destruct (o_place b), (o_place op); intro; auto; discriminate.
Qed.
Lemma own_ops_ok : forall sm, own_ops sm = true -> own_operators sm.
Proof.
  intros sm H. unfold own_ops in H. apply andb_true_iff in H. destruct H as [H1 H2]. split.
  - intros rs r op I1 I2 I3. rewrite forallb_forall in H1. specialize (H1 rs I1). rewrite forallb_forall in H1. specialize (H1 r I2). rewrite forallb_forall in H1. apply calc_op_ok. auto.
  - intros a op E I. rewrite E in H2. rewrite forallb_forall in H2. apply calc_op_ok. auto.
Qed.

Definition kind_of (l : cstr) : kind :=
  if cmd_help_check l then KHelp else if cmd_table_check l then KTable else if cmd_definition_check l then KDefinition
  else if cmd_clear_check l then KClear else if cmd_load_check l then KLoad else KEvaluation.
Lemma kind_of_ok : forall l, handles (kind_of l) l.
Proof.
  intros l. unfold kind_of. destruct (cmd_help_check l) eqn:E1. { constructor. apply help_spec. auto. }
  assert (N1 : ~ is_help l) by (rewrite <- help_spec; congruence).
  destruct (cmd_table_check l) eqn:E2. { constructor; auto. apply table_spec. auto. }
  assert (N2 : ~ is_table l) by (rewrite <- table_spec; congruence).
  destruct (cmd_definition_check l) eqn:E3. { constructor; auto. apply definition_spec. auto. }
  assert (N3 : ~ is_definition l) by (rewrite <- definition_spec; congruence).
  destruct (cmd_clear_check l) eqn:E4. { constructor; auto. apply clear_spec. auto. }
  assert (N4 : ~ is_clear l) by (rewrite <- clear_spec; congruence).
  destruct (cmd_load_check l) eqn:E5. { constructor; auto. apply load_spec. auto. }
  assert (N5 : ~ is_load l) by (rewrite <- load_spec; congruence).
  constructor; auto.
Qed.

Section Track.
Variable L : libm.
Variable fuel : nat.
Variable files : cstr -> option (list ascii).
Variable may : bool.
Definition may_clear : list fundef -> cstr -> Prop := if may then any_function else youngest.
(** The function defined by a line *)
Definition fun_of (s : session) (l : cstr) (s' : session) : option fundef :=
  match strstr l (str "=") with
  | None => None
  | Some n =>
    match parse_input strtod (ss_ctx s') (skipn (n + 1) l), tokenize_with (c_kw (ss_ctx s)) (firstn n l) with
    | Ok (tsr, PTree t), Ok tsl =>
      match arith_simplify L fuel (with_ctx s (ss_ctx s')) tsr t, words tsl with
      | Done (Ok (_, Some b)), name :: params =>
        match ctx_lookup_op (ss_ctx s') name PFunction with
        | Ok (Some op) => if streqb (o_name op) name then Some (mkFun op params b) else None
        | _ => None
        end
      | _, _ => None
      end
    | _, _ => None
    end
  end.
Lemma fun_of_ok : forall s l s' f, fun_of s l s' = Some f -> defines L fuel strtod s l s' f.
Proof.
  intros s l s' f E. unfold fun_of in E. destruct (strstr l (str "=")) as [n|] eqn:St; [|discriminate E]. pose proof (strstr_some _ _ _ St) as [_ Cut].
  destruct (parse_input strtod (ss_ctx s') (skipn (n + 1) l)) as [(tsr & [t| |])| |] eqn:P; try discriminate E.
  destruct (tokenize_with (c_kw (ss_ctx s)) (firstn n l)) as [tsl| |] eqn:T; try discriminate E.
  destruct (arith_simplify L fuel (with_ctx s (ss_ctx s')) tsr t) as [[(s1 & [b|])| |]|] eqn:A; try discriminate E.
  destruct (words tsl) as [|name params] eqn:W; [discriminate E|]. destruct (ctx_lookup_op (ss_ctx s') name PFunction) as [[op|]| |] eqn:Lk; try discriminate E.
  destruct (streqb (o_name op) name) eqn:En; [|discriminate E]. apply streqb_eq in En. injection E as <-.
  exists (firstn n l), (skipn (n + 1) l), tsl, tsr, t, s1. cbn [f_op f_params f_body]. rewrite En. auto 10.
Qed.
Fixpoint without_name (n : cstr) (fs : list fundef) : option (list fundef) :=
  match fs with
  | [] => None
  | f :: fs' => if streqb (o_name (f_op f)) n then if may then Some fs' else match fs' with [] => Some [] | _ => None end
                else match without_name n fs' with Some r => Some (f :: r) | None => None end
  end.
Lemma without_name_ok : forall n fs r, without_name n fs = Some r -> exists d1 f d2, fs = d1 ++ f :: d2 /\ r = d1 ++ d2 /\ o_name (f_op f) = n /\ (may = false -> d2 = []).
Proof.
  intros n. induction fs as [|f fs IH]; intros r E; cbn [without_name] in E; [discriminate E|]. destruct (streqb (o_name (f_op f)) n) eqn:En.
  - apply streqb_eq in En. exists [], f, fs. cbn [app]. destruct may. { injection E as <-. repeat split; auto. discriminate. }
    destruct fs; [|discriminate E]. injection E as <-. auto.
  - destruct (without_name n fs) as [r'|]; [|discriminate E]. injection E as <-. destruct (IH r' eq_refl) as (d1 & g & d2 & -> & -> & G & M). exists (f :: d1), g, d2. auto.
Qed.
Definition track (x : option (session * list fundef)) (l : string) : option (session * list fundef) :=
  match x with
  | None => None
  | Some (s, defs) =>
    match exec_command L fuel strtod files 1 s (str l) with
    | Done (Ok (Did s' _ b)) =>
      match kind_of (str l) with
      | KHelp | KTable | KEvaluation => Some (s', defs)
      | KDefinition => if existsb (Ascii.eqb "["%char) (str l) then None else if b then match fun_of s (str l) s' with Some f => if forallb calc_op (operators_of (f_body f)) then Some (s', defs ++ [f]) else None | None => None end else Some (s', defs)
      | KClear => if streqb (str l) (str "clear") then Some (s', []) else if b then match without_name (skipn 6 (str l)) defs with Some r => Some (s', r) | None => None end else Some (s', defs)
      | KLoad => None
      end
    | _ => None
    end
  end.
Definition start_only (x : res session) : option (session * list fundef) := match x with Ok s => Some (s, []) | _ => None end.
Lemma start_only_ok : forall x s defs, start_only x = Some (s, defs) -> x = Ok s /\ defs = [].
Proof. intros [s0| |] s defs E; cbn [start_only] in E; try discriminate E. injection E as <- <-. auto. Qed.
Notation begin path := (start_only (init_commands strtod files path [])) (only parsing).
Definition sound (x : option (session * list fundef)) : Prop := forall s defs, x = Some (s, defs) -> session_of L fuel strtod files may_clear s defs.
Lemma track_sound : forall x l, sound x -> sound (track x l).
Proof.
  intros x l' S s2 d2 E. destruct x as [(s & defs)|]; [|discriminate E]. specialize (S s defs eq_refl). unfold track in E. set (l := str l') in *. clearbody l.
  destruct (exec_command L fuel strtod files 1 s l) as [[[s' o b|o b]| |]|] eqn:X; try discriminate E. pose proof (kind_of_ok l) as H. destruct (kind_of l) eqn:Kd.
  - injection E as <- <-. eapply so_other; eauto. cbn; auto.
  - injection E as <- <-. eapply so_other; eauto. cbn; auto.
  - destruct (existsb (Ascii.eqb "["%char) l) eqn:Nb; [discriminate E|].
    assert (NI : ~ In "["%char l). { intro I. assert (Y : existsb (Ascii.eqb "["%char) l = true). { apply existsb_exists. exists "["%char. split; auto. } congruence. }
    destruct b.
    + destruct (fun_of s l s') as [f|] eqn:F; [|discriminate E]. destruct (forallb calc_op (operators_of (f_body f))) eqn:Fb; [|discriminate E]. injection E as <- <-.
      eapply so_define; eauto. { apply fun_of_ok. auto. } apply Forall_forall. rewrite forallb_forall in Fb. intros op Io. apply calc_op_ok. auto.
    + injection E as <- <-. eapply so_rejected; eauto.
  - destruct (streqb l (str "clear")) eqn:C. { apply streqb_eq in C. subst l. injection E as <- <-. eapply so_clear_all; eauto. }
    assert (N : l <> str "clear"). { intros ->. vm_compute in C. discriminate C. }
    destruct b.
    + destruct (without_name (skipn 6 l) defs) as [r|] eqn:W; [|discriminate E]. injection E as <- <-. destruct (without_name_ok _ _ _ W) as (d1 & f & d3 & -> & -> & G & M).
      eapply so_clear; eauto. unfold may_clear. destruct may; [exact Logic.I|]. rewrite (M eq_refl). exists d1, f. auto.
    + injection E as <- <-. eapply so_clear_nothing; eauto.
  - discriminate E.
  - injection E as <- <-. eapply so_other; eauto. cbn; auto.
Qed.
Lemma begin_sound : forall path, sound (begin path).
Proof. intros path s defs E. destruct (start_only_ok (init_commands strtod files path []) s defs E) as (A & ->). exact (so_start _ _ _ _ _ files path [] s A). Qed.
Definition tracked (path : cstr) (ls : list string) : option (session * list fundef) := fold_left track ls (begin path).
Theorem tracked_sound : forall path ls, sound (tracked path ls).
Proof.
  intros path ls. unfold tracked. generalize (begin path), (begin_sound path). induction ls as [|l ls IH]; intros x S; cbn [fold_left]; auto. apply IH, track_sound, S.
Qed.
End Track.
