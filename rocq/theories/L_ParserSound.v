(** Proofs about the parser: whatever it accepts is an expression, and every expression is accepted. *)
From Coq Require Import List Ascii String NArith ZArith Bool Lia Arith.
From Verif Require Import M_Base M_StringUtil M_Tree M_Context M_Tokenizer M_Parser S_Engine S_Parse L_Trie L_Context L_Parser.
Import ListNotations.
Open Scope nat_scope.
Open Scope res_scope.

(** What lies on the two stacks, as pieces of expressions (top first). *)
Inductive item :=
| IPre (op : operator) (t : tk)
| IInf (l : sterm) (op : operator) (t : tk)
| IGlue (l : sterm) (g : operator) (t : tk)
| IPar (o : tk)
| IArg (f : operator) (t o : tk) (done : list (sterm * tk)).
(** The last thing read *)
Inductive cur :=
| CNone
| CWait (f : operator) (t : tk)
| CDone (s : sterm) (reduced : bool).

Definition item_ops (x : item) : list opdata :=
  match x with
  | IPre op t => [mkOd (Some op) (Some 1) (fst t)]
  | IInf _ op t => [mkOd (Some op) (Some 2) (fst t)]
  | IGlue _ g t => [mkOd (Some g) (Some 2) (fst t)]
  | IPar o => [mkOd None None (fst o)]
  | IArg f t o done => [mkOd None None (fst o); mkOd (Some f) (Some (List.length done)) (fst t)]
  end.
Definition item_nodes (x : item) : list node :=
  match x with
  | IPre _ _ | IPar _ => []
  | IInf l _ _ | IGlue l _ _ => [erase l]
  | IArg _ _ _ done => rev (map (fun p => erase (fst p)) done)
  end.
Definition flat_done (done : list (sterm * tk)) : list tk := flat_map (fun p => flatten (fst p) ++ [snd p]) done.
Definition item_toks (x : item) : list tk :=
  match x with
  | IPre _ t => [t]
  | IInf l _ t => flatten l ++ [t]
  | IGlue l _ _ => flatten l
  | IPar o => [o]
  | IArg _ t o done => t :: o :: flat_done done
  end.
Definition iops (its : list item) : list opdata := flat_map item_ops its.
Definition inodes (its : list item) : list node := flat_map item_nodes its.
Fixpoint tokens (its : list item) (after : list tk) : list tk :=
  match its with [] => after | x :: rest => tokens rest (item_toks x ++ after) end.
Definition is_frame (x : item) : bool := match x with IPar _ | IArg _ _ _ _ => true | _ => false end.
Definition frames (its : list item) : list item := filter is_frame its.

Lemma tokens_app : forall its a b, tokens its (a ++ b) = tokens its a ++ b.
Proof. induction its as [|x its IH]; intros; simpl; auto. rewrite app_assoc. apply IH. Qed.

Ltac conjs := repeat match goal with |- _ /\ _ => split end.
Section Sound.
Variable strtod : cstr -> option double.
Variable pc : pctx.
Hypothesis U : usual pc.
Notation wfs := (wfs strtod pc).
Notation wfa := (wfa strtod pc).

Definition cur_ops (c : cur) : list opdata :=
  match c with
  | CNone | CDone _ true => []
  | CWait f t => [mkOd (Some f) (Some 0) (fst t)]
  | CDone s false => fst (unred s)
  end.
Definition cur_nodes (c : cur) : list node :=
  match c with
  | CNone | CWait _ _ => []
  | CDone s true => [erase s]
  | CDone s false => snd (unred s)
  end.
Definition cur_toks (c : cur) : list tk :=
  match c with CNone => [] | CWait _ t => [t] | CDone s _ => flatten s end.
Definition cur_edge (c : cur) : list operator := match c with CDone s _ => left_edge s | _ => [] end.
Definition cur_ai (c : cur) : bool := match c with CDone _ _ => true | _ => false end.
Definition cur_ap (c : cur) : bool := match c with CWait _ _ => true | _ => false end.
Definition st (its : list item) (c : cur) (r : perr) (k : nat) : pstate :=
  mkSt (cur_nodes c ++ inodes its) (cur_ops c ++ iops its) r k (cur_ai c) (cur_ap c).

(** a called function, its arity not checked yet *)
Definition called (s : sterm) : Prop :=
  match s with
  | SFun f t o args => plain t /\ named pc PFunction t f /\ o_arity f <> Some 0 /\ opening o /\ wfa args
  | SEmpty f t o c => plain t /\ named pc PFunction t f /\ o_arity f <> Some 0 /\ opening o /\ closing c
  | _ => False
  end.
Definition cur_good (c : cur) : Prop :=
  match c with
  | CNone => True
  | CWait f t => plain t /\ named pc PFunction t f /\ o_arity f <> Some 0
  | CDone s true => wfs s /\ correct s /\ right_edge s = []
  | CDone s false => called s /\ correct s
  end.
Fixpoint done_good (done : list (sterm * tk)) : Prop :=
  match done with
  | [] => True
  | (s, d) :: rest => wfs s /\ correct s /\ delimiter d /\ done_good rest
  end.
(** [after]: the tokens behind the items; [edge]: the left edge of the expression behind them *)
Fixpoint good (its : list item) (after : list tk) (edge : list operator) : Prop :=
  match its with
  | [] => True
  | x :: rest =>
    match x with
    | IPre op t => plain t /\ no_name pc PFunction t /\ named pc PPrefix t op
        /\ (forall o, In o edge -> ~ goes_left op o) /\ good rest (item_toks x ++ after) []
    | IInf l op t => wfs l /\ correct l /\ plain t /\ named pc PInfix t op
        /\ (forall o, In o (right_edge l) -> goes_left o op) /\ (forall o, In o edge -> ~ goes_left op o)
        /\ good rest (item_toks x ++ after) (op :: left_edge l)
    | IGlue l g t => wfs l /\ correct l /\ pc_glue pc = Some g /\ no_name pc PInfix t /\ no_name pc PPostfix t
        /\ hd_error after = Some t
        /\ (forall o, In o (right_edge l) -> goes_left o g) /\ (forall o, In o edge -> ~ goes_left g o)
        /\ good rest (item_toks x ++ after) (g :: left_edge l)
    | IPar o => opening o /\ good rest (item_toks x ++ after) []
    | IArg f t o done => plain t /\ named pc PFunction t f /\ o_arity f <> Some 0 /\ opening o /\ done_good done
        /\ good rest (item_toks x ++ after) []
    end
  end.
Definition inv (its : list item) (c : cur) : Prop := cur_good c /\ good its (cur_toks c) (cur_edge c).
Definition toks (its : list item) (c : cur) : list tk := tokens its (cur_toks c).

Lemma good_more : forall its a b e, good its a e -> good its (a ++ b) e.
Proof.
  induction its as [|x its IH]; simpl; auto. intros a b e H.
  destruct x; simpl in *; intuition auto;
    repeat match goal with
    | |- good _ ((?x ++ ?y) ++ ?a ++ ?b) _ => replace ((x ++ y) ++ a ++ b) with (((x ++ y) ++ a) ++ b) by (rewrite <- !app_assoc; auto); auto
    | |- good _ (?x ++ ?a ++ ?b) _ => rewrite app_assoc; auto
    end.
  - apply (IH (t :: a)); auto.
  - destruct a; simpl in *; congruence.
  - apply (IH (o :: a)); auto.
  - apply (IH (t :: o :: flat_done done ++ a) b) in H5. simpl in H5. rewrite <- app_assoc in H5. exact H5.
Qed.

Lemma iops_nf : forall its a e, good its a e -> nf (iops its).
Proof.
  intros [|x its] a e H; simpl; auto. destruct x; simpl in *; auto.
  - destruct H as (_ & _ & H & _). apply (named_place pc U) in H. congruence.
  - destruct H as (_ & _ & _ & H & _). apply (named_place pc U) in H. congruence.
  - destruct H as (_ & _ & H & _). apply (glue_arity pc U) in H. destruct H as [_ H]. congruence.
Qed.

(** The stack does not pop for operators at the left edge behind it. *)
Lemma good_keeps : forall its a e, good its a e -> keeps (iops its) e.
Proof.
  intros [|x its] a e H; simpl; auto. destruct x; simpl in *; auto; tauto.
Qed.

(** Popping *)
Lemma cpop : forall cond its s r k, wfs s -> correct s -> (forall x, In x (right_edge s) -> cond x = true) ->
  good its (flatten s) (left_edge s) ->
  exists its' s', pop_all_while cond (mkSt (erase s :: inodes its) (iops its) r k true false)
      = Ok (mkSt (erase s' :: inodes its') (iops its') r k true false, true)
    /\ wfs s' /\ correct s' /\ (forall x, In x (right_edge s') -> cond x = true)
    /\ good its' (flatten s') (left_edge s')
    /\ tokens its' (flatten s') = tokens its (flatten s) /\ frames its' = frames its
    /\ stops cond (iops its').
Proof.
  intros cond. induction its as [|x its IH]; intros s r k W C R G.
  - exists [], s. rewrite pop_stops by exact I. conjs; auto.
  - destruct x as [op t|l op t|l g t|o|f t o done].
    + cbn [iops flat_map item_ops app] in *. simpl in G. destruct G as (G1 & G2 & G3 & G4 & G5).
      destruct (cond op) eqn:Ec.
      * destruct (IH (SPre op t s) r k) as (its' & s' & E & H).
        { cbn. auto. } { cbn. auto. } { cbn. intros x [<-|Hx]; auto. } { cbn. exact G5. }
        exists its', s'. split; [|exact H].
        rewrite pop_unfold. cbn [p_ops od_op]. rewrite Ec.
        change (mkSt (erase s :: inodes (IPre op t :: its)) (mkOd (Some op) (Some 1) (fst t) :: flat_map item_ops its) r k true false)
          with (over (mkOd (Some op) (Some 1) (fst t) :: [], [erase s]) (mkSt (inodes its) (iops its) r k true false)).
        rewrite (pop_op op 1 (fst t) [erase s]); auto. right; eapply prefix_arity; eauto.
      * exists (IPre op t :: its), s. rewrite pop_stops by exact Ec. simpl. conjs; auto; try tauto.
    + cbn [iops flat_map item_ops app] in *. simpl in G. destruct G as (G1 & G2 & G3 & G4 & G5 & G6 & G7).
      destruct (cond op) eqn:Ec.
      * destruct (IH (SInf op l t s) r k) as (its' & s' & E & H).
        { cbn. auto. } { cbn. auto. } { cbn. intros x [<-|Hx]; auto. } { cbn. rewrite <- app_assoc in G7. exact G7. }
        exists its', s'. split; [|cbn [flatten] in H; simpl; rewrite <- app_assoc; exact H].
        rewrite pop_unfold. cbn [p_ops od_op]. rewrite Ec.
        change (mkSt (erase s :: inodes (IInf l op t :: its)) (mkOd (Some op) (Some 2) (fst t) :: flat_map item_ops its) r k true false)
          with (over (mkOd (Some op) (Some 2) (fst t) :: [], [erase s; erase l]) (mkSt (inodes its) (iops its) r k true false)).
        rewrite (pop_op op 2 (fst t) [erase l; erase s]); auto. right; eapply infix_arity; eauto.
      * exists (IInf l op t :: its), s. rewrite pop_stops by exact Ec. simpl. conjs; auto; try tauto.
    + cbn [iops flat_map item_ops app] in *. simpl in G. destruct G as (G1 & G2 & G3 & G4 & G5 & G6 & G7 & G8 & G9).
      assert (Ef : first s = t).
      { destruct (first_head s) as (rest & Ef). rewrite Ef in G6. simpl in G6. congruence. }
      destruct (cond g) eqn:Ec.
      * destruct (IH (SGlue g l s) r k) as (its' & s' & E & H).
        { cbn. rewrite Ef. auto. } { cbn. auto. } { cbn. intros x [<-|Hx]; auto. } { cbn. exact G9. }
        exists its', s'. split; [|exact H].
        rewrite pop_unfold. cbn [p_ops od_op]. rewrite Ec.
        change (mkSt (erase s :: inodes (IGlue l g t :: its)) (mkOd (Some g) (Some 2) (fst t) :: flat_map item_ops its) r k true false)
          with (over (mkOd (Some g) (Some 2) (fst t) :: [], [erase s; erase l]) (mkSt (inodes its) (iops its) r k true false)).
        rewrite (pop_op g 2 (fst t) [erase l; erase s]); auto.
        { cbn in E. rewrite Ef in E. exact E. } right; apply (glue_arity pc U); auto.
      * exists (IGlue l g t :: its), s. rewrite pop_stops by exact Ec. simpl. conjs; auto; try tauto.
    + exists (IPar o :: its), s. rewrite pop_stops by exact I. simpl in *. conjs; auto; try tauto.
    + exists (IArg f t o done :: its), s. rewrite pop_stops by exact I. simpl in *. conjs; auto; try tauto.
Qed.

Definition all_functions (cond : operator -> bool) : Prop :=
  forall f, made f -> o_place f = PFunction -> cond f = true.

Lemma called_dec : forall s, called s -> wfs s \/
  exists f t ops ns k, unred s = ([mkOd (Some f) (Some k) (fst t)], ns) /\ named pc PFunction t f
    /\ negb (arity_eqb (o_arity f) None) && negb (arity_eqb (o_arity f) (Some k)) = true /\ ops = @nil opdata.
Proof.
  intros s H. destruct s; simpl in H; try contradiction.
  - destruct (arity_eqb_spec (o_arity op) None) as [E|E]; [left; cbn; tauto|].
    destruct (arity_eqb_spec (o_arity op) (Some (nargs args))) as [E'|E']; [left; cbn; tauto|].
    right. exists op, t, []. cbn. eexists _, _. split; [reflexivity|]. split; [tauto|]. split; auto.
    destruct (arity_eqb_spec (o_arity op) None); try contradiction.
    destruct (arity_eqb_spec (o_arity op) (Some (nargs args))); try contradiction. reflexivity.
  - destruct (arity_eqb_spec (o_arity op) None) as [E|E]; [left; cbn; tauto|].
    right. exists op, t, []. cbn. eexists _, _. split; [reflexivity|]. split; [tauto|]. split; auto.
    destruct (arity_eqb_spec (o_arity op) None); try contradiction.
    destruct (arity_eqb_spec (o_arity op) (Some 0)); [tauto|reflexivity].
Qed.

(** The operand just read is completed: either a called function has the wrong number of arguments,
    or the stack is popped down to what the condition spares. *)
Lemma cpop_cur : forall cond its s b r k, all_functions cond -> inv its (CDone s b) ->
  (~ wfs s /\ b = false /\ exists x, pop_all_while cond (st its (CDone s b) r k) = Ok (x, false))
  \/ (wfs s /\ exists its' s', pop_all_while cond (st its (CDone s b) r k)
      = Ok (mkSt (erase s' :: inodes its') (iops its') r k true false, true)
    /\ wfs s' /\ correct s' /\ (forall x, In x (right_edge s') -> cond x = true)
    /\ good its' (flatten s') (left_edge s')
    /\ tokens its' (flatten s') = tokens its (flatten s) /\ frames its' = frames its
    /\ stops cond (iops its')).
Proof.
  intros cond its s b r k A [Hc G]. simpl in Hc. destruct b.
  - right. destruct Hc as (W & C & R). split; auto.
    destruct (cpop cond its s r k W C) as (its' & s' & E & H); auto. { rewrite R. contradiction. }
    exists its', s'. split; auto.
  - destruct Hc as (Hc & C). destruct (called_dec s Hc) as [W|(f & t & o & ns & j & E & Nf & Ha & _)].
    + right. split; auto.
      destruct (cpop cond its s r k W C) as (its' & s' & E & H); auto.
      { destruct s; simpl in Hc; try contradiction; simpl; contradiction. }
      exists its', s'. split; auto. rewrite <- E.
      unfold st. cbn [cur_nodes cur_ops cur_ai cur_ap].
      apply (pop_unred strtod pc U s cond (mkSt (inodes its) (iops its) r k true false) W).
      intros od Hi. destruct (unred_ops strtod pc U s od W Hi) as (x & Ex & [Hx|[Mx Px]]).
      * destruct s; simpl in Hc; try contradiction; simpl in Hx; contradiction.
      * exists x. split; auto.
    + left. split; [|split; auto].
      * intros W. destruct s; simpl in Hc; try contradiction; cbn in W; cbn in E; inversion E; subst.
        -- destruct W as (_ & _ & _ & [W|W] & _); rewrite W in Ha; rewrite ?arity_refl in Ha; simpl in Ha; rewrite ?andb_false_r in Ha; discriminate.
        -- destruct W as (_ & _ & W & _); rewrite W in Ha; simpl in Ha; discriminate.
      * unfold st. cbn [cur_nodes cur_ops cur_ai cur_ap]. rewrite E. cbn [fst snd app].
        rewrite pop_unfold. cbn [p_ops od_op]. rewrite A.
        2:{ eapply named_made; eauto. } 2:{ eapply named_place; eauto. }
        unfold op_pop_and_insert. cbn [p_ops od_op od_arity od_tok]. rewrite Ha. cbn [rbind]. eauto.
Qed.

Lemma all_functions_yields : forall o, made o -> (o_place o = PInfix \/ o_place o = PPostfix) -> all_functions (yields o).
Proof. intros o M P f Mf Pf. apply yields_spec. apply pops_function; auto. Qed.

Lemma stops_keeps : forall o ops, stops (yields o) ops -> keeps ops [o].
Proof.
  intros o [|[[top|] a k] ops]; simpl; auto. intros H x [<-|[]]. apply yields_false; auto.
Qed.

(** adding one operator to the edge *)
Lemma good_edge : forall its a e o, good its a e -> keeps (iops its) [o] -> good its a (o :: e).
Proof.
  intros [|x its] a e o H K; simpl in *; auto. destruct x; simpl in *; auto; intuition (subst; eauto);
    match goal with H : In _ _ |- _ => idtac | _ => idtac end.
Qed.

(** *** The steps on configurations *)
Notation step := (step strtod pc).

Lemma c_open : forall its c t r k, cur_good c -> c = CNone \/ (exists f u, c = CWait f u) ->
  good its (cur_toks c ++ [t]) [] -> opening t ->
  exists its', step (st its c r k) (fst t) (snd t) = Ok (Next (st its' CNone r (fst t)))
    /\ inv its' CNone /\ toks its' CNone = toks its c ++ [t]
    /\ (match c with
        | CWait f u => its' = IArg f u t [] :: its
        | _ => its' = IPar t :: its
        end).
Proof.
  intros its c t r k Hc [->|(f & u & ->)] G O.
  - exists (IPar t :: its). unfold st. cbn [cur_nodes cur_ops cur_ai cur_ap app].
    rewrite step_open by auto. split; [reflexivity|]. split; [split; [exact I|]|split; auto].
    + cbn. auto.
    + unfold toks. simpl. rewrite <- tokens_app. reflexivity.
  - exists (IArg f u t [] :: its). unfold st. cbn [cur_nodes cur_ops cur_ai cur_ap app].
    rewrite step_open by auto. split; [reflexivity|]. split; [split; [exact I|]|split; auto].
    + cbn in *. intuition auto.
    + unfold toks. simpl. rewrite <- tokens_app. reflexivity.
Qed.

(** a token in operand position *)
Lemma c_operand : forall its t r k, good its [t] [] -> plain t -> 
  (exists c, step (st its CNone r k) (fst t) (snd t) = Ok (Next (st its c r (fst t)))
     /\ inv its c /\ cur_toks c = [t]
     /\ (match pc_lookup pc PFunction (snd t) with
         | Some f => if arity_eqb (o_arity f) (Some 0) then c = CDone (SNull f t) true else c = CWait f t
         | None => True
         end))
  \/ (exists op, pc_lookup pc PFunction (snd t) = None /\ named pc PPrefix t op
      /\ step (st its CNone r k) (fst t) (snd t) = Ok (Next (st (IPre op t :: its) CNone r (fst t)))
      /\ inv (IPre op t :: its) CNone)
  \/ (exists x, step (st its CNone r k) (fst t) (snd t) = Ok (Exit x)
      /\ pc_lookup pc PFunction (snd t) = None /\ pc_lookup pc PPrefix (snd t) = None /\ strtod (snd t) = None
      /\ ~ ((forall p, no_name pc p t) /\ is_letter (hd NUL (snd t)) = true)).
Proof.
  intros its t r k G P. unfold st at 1 3 5. cbn [cur_nodes cur_ops cur_ai cur_ap app].
  destruct (pc_lookup pc PFunction (snd t)) as [f|] eqn:Ef.
  - left. destruct (arity_eqb_spec (o_arity f) (Some 0)) as [Ea|Ea].
    + exists (CDone (SNull f t) true). rewrite (step_null strtod pc U t f) by auto.
      split; [reflexivity|]. split; auto. split; cbn; auto.
    + exists (CWait f t). rewrite (step_function strtod pc U t f) by auto.
      split; [reflexivity|]. split; auto. split; cbn; auto.
  - destruct (pc_lookup pc PPrefix (snd t)) as [op|] eqn:Ep.
    + right; left. exists op. split; auto. split; auto. rewrite (step_prefix strtod pc U t op) by auto.
      split; [reflexivity|]. split; cbn; auto. conjs; auto.
    + destruct (strtod (snd t)) as [v|] eqn:Es.
      * left. exists (CDone (SConst t v) true). rewrite (step_const strtod pc t v) by auto.
        split; [reflexivity|]. split; auto. split; cbn; auto.
      * destruct (pc_lookup pc PInfix (snd t)) as [oi|] eqn:Ei; [|destruct (pc_lookup pc PPostfix (snd t)) as [oo|] eqn:Eo;
          [|destruct (is_letter (hd NUL (snd t))) eqn:El]].
        -- right; right. destruct (plain_inv t P) as (B & _). unfold step. unfold blank in B. cbv zeta. rewrite B.
           rewrite glue_skip by reflexivity. cbn [rbind]. rewrite main_plain by auto.
           unfold step_operator. simpl. rewrite Ef, Ep. unfold step_leaf, has. rewrite Es, Ei. simpl.
           unfold ERROR. eexists. split; [reflexivity|]. conjs; auto. intros [H _]. specialize (H PInfix). unfold no_name in H. congruence.
        -- right; right. destruct (plain_inv t P) as (B & _). unfold step. unfold blank in B. cbv zeta. rewrite B.
           rewrite glue_skip by reflexivity. cbn [rbind]. rewrite main_plain by auto.
           unfold step_operator. simpl. rewrite Ef, Ep. unfold step_leaf, has. rewrite Es, Ei, Eo. simpl.
           unfold ERROR. eexists. split; [reflexivity|]. conjs; auto. intros [H _]. specialize (H PPostfix). unfold no_name in H. congruence.
        -- left. assert (N : forall p, no_name pc p t) by (intros []; auto).
           exists (CDone (SVar t) true). rewrite (step_var strtod pc t) by auto.
           split; [reflexivity|]. split; auto. split; cbn; auto.
        -- right; right. destruct (plain_inv t P) as (B & _). unfold step. unfold blank in B. cbv zeta. rewrite B.
           rewrite glue_skip by reflexivity. cbn [rbind]. rewrite main_plain by auto.
           unfold step_operator. simpl. rewrite Ef, Ep. unfold step_leaf, has. rewrite Es, Ei, Eo. simpl. rewrite El. simpl.
           unfold ERROR. eexists. split; [reflexivity|]. conjs; auto. intros [_ H]. congruence.
Qed.

(** an infix operator *)
Lemma c_infix : forall its s b t op r k, inv its (CDone s b) -> plain t -> named pc PInfix t op ->
  (~ wfs s /\ exists x, step (st its (CDone s b) r k) (fst t) (snd t) = Ok (Exit x))
  \/ (wfs s /\ exists its', step (st its (CDone s b) r k) (fst t) (snd t) = Ok (Next (st its' CNone r (fst t)))
      /\ inv its' CNone /\ toks its' CNone = toks its (CDone s b) ++ [t] /\ frames its' = frames its
      /\ exists l rest, its' = IInf l op t :: rest).
Proof.
  intros its s b t op r k I0 P N.
  assert (M : made op) by (eapply named_made; eauto).
  assert (Pl : o_place op = PInfix) by (eapply named_place; eauto).
  destruct (cpop_cur (yields op) its s b r (fst t)) as [(Hw & Hb & x & E)|(W & its' & s' & E & W' & C' & R' & G' & T' & F' & S')]; auto.
  { apply all_functions_yields; auto. }
  - left. split; auto. destruct (plain_inv t P) as (B & _). unfold M_Parser.step. unfold blank in B. cbv zeta. rewrite B.
    rewrite (glue_skip_infix pc _ _ op) by auto. cbn [rbind]. rewrite main_plain by auto.
    unfold step_operator. cbn [set_tok st cur_ai p_ai negb]. rewrite N.
    unfold push_operator. rewrite Pl. unfold op_push. cbn [od_op]. rewrite Pl.
    change (set_tok (st its (CDone s b) r k) (fst t)) with (st its (CDone s b) r (fst t)). rewrite E. cbn. eauto.
  - right. split; auto. exists (IInf s' op t :: its'). split; [|split; [|split; [|split]]].
    + unfold st at 1. cbn [cur_ai cur_ap]. erewrite (step_infix strtod pc U t op); [|auto|auto|exact E]. reflexivity.
    + split; [exact I|]. cbn. conjs; auto; try apply P; try contradiction.
      { intros o Ho. apply yields_spec; auto. }
      { rewrite app_nil_r. apply good_more. apply good_edge; auto. apply stops_keeps; auto. }
    + unfold toks. cbn [cur_toks tokens item_toks]. rewrite app_nil_r, tokens_app, T'. reflexivity.
    + simpl. auto.
    + eauto.
Qed.

(** a postfix operator *)
Lemma c_postfix : forall its s b t op r k, inv its (CDone s b) -> plain t -> no_name pc PInfix t -> named pc PPostfix t op ->
  (~ wfs s /\ exists x, step (st its (CDone s b) r k) (fst t) (snd t) = Ok (Exit x))
  \/ (wfs s /\ exists its' s', step (st its (CDone s b) r k) (fst t) (snd t) = Ok (Next (st its' (CDone s' true) r (fst t)))
      /\ inv its' (CDone s' true) /\ toks its' (CDone s' true) = toks its (CDone s b) ++ [t] /\ frames its' = frames its).
Proof.
  intros its s b t op r k I0 P N0 N.
  assert (M : made op) by (eapply named_made; eauto).
  assert (Pl : o_place op = PPostfix) by (eapply named_place; eauto).
  destruct (cpop_cur (yields op) its s b r (fst t)) as [(Hw & Hb & x & E)|(W & its' & s' & E & W' & C' & R' & G' & T' & F' & S')]; auto.
  { apply all_functions_yields; auto. }
  - left. split; auto. destruct (plain_inv t P) as (B & _). unfold M_Parser.step. unfold blank in B. cbv zeta. rewrite B.
    rewrite (glue_skip_postfix pc _ _ op) by auto. cbn [rbind]. rewrite main_plain by auto.
    unfold step_operator. cbn [set_tok st cur_ai p_ai negb]. rewrite N0, N.
    unfold push_operator. rewrite Pl. unfold op_push. cbn [od_op]. rewrite Pl.
    change (set_tok (st its (CDone s b) r k) (fst t)) with (st its (CDone s b) r (fst t)). rewrite E. cbn. eauto.
  - right. split; auto. exists its', (SPost op s' t). split; [|split; [|split]]; auto.
    + unfold st at 1. cbn [cur_ai cur_ap]. erewrite (step_postfix strtod pc U t op); [|auto|auto|auto|exact E]. reflexivity.
    + split; cbn.
      * conjs; auto; try apply P. intros o Ho. apply yields_spec; auto.
      * apply good_more. apply good_edge; auto. apply stops_keeps; auto.
    + unfold toks. cbn [cur_toks flatten]. rewrite tokens_app, T'. reflexivity.
Qed.

(** implicit multiplication in front of a token *)
Lemma c_glue : forall its s b t g r k, inv its (CDone s b) -> pc_glue pc = Some g ->
  blank t = false -> ~ closing t -> ~ delimiter t -> no_name pc PInfix t -> no_name pc PPostfix t ->
  (~ wfs s /\ exists x, step (st its (CDone s b) r k) (fst t) (snd t) = Ok (Exit x))
  \/ (wfs s /\ exists its' l rest, its' = IGlue l g t :: rest
      /\ step (st its (CDone s b) r k) (fst t) (snd t) = step (st its' CNone r (fst t)) (fst t) (snd t)
      /\ good its' [t] [] /\ tokens its' [t] = toks its (CDone s b) ++ [t] /\ frames its' = frames its).
Proof.
  intros its s b t g r k I0 Hg B Nc Nd N0 N1.
  destruct (glue_arity pc U g Hg) as [Ga Pl].
  assert (M : made g) by (destruct U as [_ U2]; apply U2 in Hg; tauto).
  destruct (cpop_cur (yields g) its s b r (fst t)) as [(Hw & Hb & x & E)|(W & its' & s' & E & W' & C' & R' & G' & T' & F' & S')]; auto.
  { apply all_functions_yields; auto. }
  - left. split; auto. unfold M_Parser.step. unfold blank in B. cbv zeta. rewrite B.
    unfold step_glue. rewrite Hg. unfold closing, delimiter in *. unfold has. rewrite N0, N1.
    rewrite (proj1 (not_true_iff_false _) Nc), (proj1 (not_true_iff_false _) Nd). cbn [set_tok st cur_ai p_ai negb andb].
    unfold push_operator. rewrite Pl. unfold op_push. cbn [od_op]. rewrite Pl.
    change (set_tok (st its (CDone s b) r k) (fst t)) with (st its (CDone s b) r (fst t)). rewrite E. cbn. eauto.
  - right. split; auto. exists (IGlue s' g t :: its'), s', its'. split; auto. split; [|split; [|split]].
    + unfold st at 1. cbn [cur_ai cur_ap].
      erewrite (step_glued strtod pc U g t); [|auto|auto|auto|auto|auto|auto|exact E]. reflexivity.
    + cbn. conjs; auto; try contradiction.
      { intros o Ho. apply yields_spec; auto. }
      { apply good_more. apply good_edge; auto. apply stops_keeps; auto. }
    + unfold toks. cbn [cur_toks tokens item_toks]. rewrite tokens_app, T'. reflexivity.
    + simpl. auto.
Qed.

Fixpoint mk_args (done : list (sterm * tk)) (s : sterm) (c : tk) : sargs :=
  match done with [] => ALast s c | (x, d) :: rest => AMore x d (mk_args rest s c) end.
Lemma mk_args_wfa : forall done s c, done_good done -> wfs s -> closing c -> wfa (mk_args done s c).
Proof. induction done as [|[x d] done IH]; intros; cbn in *; auto. intuition auto. Qed.
Lemma mk_args_correct : forall done s c, done_good done -> correct s -> correct_args (mk_args done s c).
Proof. induction done as [|[x d] done IH]; intros; cbn in *; auto. intuition auto. Qed.
Lemma mk_args_flatten : forall done s c, flatten_args (mk_args done s c) = flat_done done ++ flatten s ++ [c].
Proof. induction done as [|[x d] done IH]; intros; cbn; auto. rewrite IH, <- !app_assoc. reflexivity. Qed.
Lemma mk_args_erase : forall done s c, erase_args (mk_args done s c) = map (fun p => erase (fst p)) done ++ [erase s].
Proof. induction done as [|[x d] done IH]; intros; cbn; auto. rewrite IH. reflexivity. Qed.
Lemma mk_args_nargs : forall done s c, nargs (mk_args done s c) = S (List.length done).
Proof. induction done as [|[x d] done IH]; intros; cbn; auto. Qed.

(** a closing parenthesis behind an operand *)
Lemma c_close : forall its s b t r k, inv its (CDone s b) -> closing t ->
  (exists x, step (st its (CDone s b) r k) (fst t) (snd t) = Ok (Exit x)) /\ (wfs s -> frames its = [])
  \/ (wfs s /\ exists its' s' b', step (st its (CDone s b) r k) (fst t) (snd t) = Ok (Next (st its' (CDone s' b') r (fst t)))
      /\ inv its' (CDone s' b') /\ toks its' (CDone s' b') = toks its (CDone s b) ++ [t]
      /\ exists fr, frames its = fr :: frames its'
         /\ match fr with
            | IPar o => b' = true
            | IArg f u o done => b' = false /\ exists x, s' = SFun f u o (mk_args done x t)
            | _ => False
            end).
Proof.
  intros its s b t r k I0 C.
  destruct (closing_cases t C) as (B & O & _).
  assert (Est : step (st its (CDone s b) r k) (fst t) (snd t) = step_closing (st its (CDone s b) r (fst t)) (fst t)).
  { unfold M_Parser.step. unfold blank in B. cbv zeta. rewrite B. rewrite glue_skip_closing by auto. cbn [rbind].
    unfold step_main. unfold opening in O. rewrite (proj1 (not_true_iff_false _) O). unfold closing in C. rewrite C. reflexivity. }
  destruct (cpop_cur (fun _ => true) its s b r (fst t)) as [(Hw & Hb & x & E)|(W & its' & s' & E & W' & C' & R' & G' & T' & F' & S')]; auto.
  { intros f _ _; auto. }
  - left. split; [|contradiction]. rewrite Est. unfold step_closing. rewrite E. cbn. unfold ERROR. eauto.
  - destruct its' as [|x its'].
    + left. split; [|intros _; rewrite <- F'; auto]. rewrite Est. unfold step_closing. rewrite E. cbn. unfold ERROR. eauto.
    + destruct x as [op u|l op u|l g u|o|f u o done]; try (simpl in S'; discriminate).
      * right. split; auto. exists its', (SParen o s' t), true. simpl in G'. destruct G' as [G1 G2].
        split; [|split; [|split]].
        -- unfold st at 1. cbn [cur_ai cur_ap]. erewrite step_close; [|exact C|exact E].
           rewrite count_nf by (eapply iops_nf; eauto). reflexivity.
        -- split; cbn; auto. replace (o :: flatten s' ++ [t]) with ((o :: flatten s') ++ [t]) by auto. apply good_more; auto.
        -- unfold toks. cbn [cur_toks flatten]. rewrite <- T'. cbn [tokens item_toks]. rewrite <- tokens_app.
           reflexivity.
        -- exists (IPar o). rewrite <- F'. split; auto.
      * right. split; auto. exists its', (SFun f u o (mk_args done s' t)), false. simpl in G'.
        destruct G' as (G1 & G2 & G3 & G4 & G5 & G6).
        split; [|split; [|split]].
        -- unfold st at 1. cbn [cur_ai cur_ap]. erewrite step_close; [|exact C|exact E].
           cbn [flat_map item_ops app count_arg inc]. rewrite (named_place pc U _ _ _ G2). cbn [placement_eqb].
           unfold st. cbn [cur_nodes cur_ops unred fst snd cur_ai cur_ap app].
           rewrite mk_args_nargs, mk_args_erase, rev_app_distr. reflexivity.
        -- split; cbn.
           ++ conjs; auto; try apply G1. { apply mk_args_wfa; auto. } apply mk_args_correct; auto.
           ++ rewrite mk_args_flatten. 
              replace (u :: o :: flat_done done ++ flatten s' ++ [t]) with ((u :: o :: flat_done done ++ flatten s') ++ [t])
                by (simpl; rewrite <- app_assoc; auto). apply good_more; auto.
        -- unfold toks. cbn [cur_toks flatten]. rewrite <- T'. cbn [tokens item_toks]. rewrite <- tokens_app, mk_args_flatten.
           simpl. rewrite <- app_assoc. reflexivity.
        -- exists (IArg f u o done). rewrite <- F'. split; [reflexivity|]. split; eauto.
Qed.

(** a delimiter behind an operand *)
Lemma c_delim : forall its s b t r k, inv its (CDone s b) -> delimiter t ->
  (forall x, step (st its (CDone s b) r k) (fst t) (snd t) <> Ok (Next x))
    /\ (wfs s -> match frames its with IArg _ _ _ _ :: _ => False | _ => True end)
  \/ (wfs s /\ exists f u o done rest x,
      step (st its (CDone s b) r k) (fst t) (snd t) = Ok (Next (st (IArg f u o (done ++ [(x, t)]) :: rest) CNone r (fst t)))
      /\ inv (IArg f u o (done ++ [(x, t)]) :: rest) CNone
      /\ toks (IArg f u o (done ++ [(x, t)]) :: rest) CNone = toks its (CDone s b) ++ [t]
      /\ frames its = IArg f u o done :: frames rest).
Proof.
  intros its s b t r k I0 D.
  destruct (delimiter_cases t D) as (B & O & Cl).
  assert (Est : step (st its (CDone s b) r k) (fst t) (snd t) = step_delimiter (st its (CDone s b) r (fst t))).
  { unfold M_Parser.step. unfold blank in B. cbv zeta. rewrite B. rewrite glue_skip_delimiter by auto. cbn [rbind].
    unfold step_main. unfold opening in O. rewrite (proj1 (not_true_iff_false _) O).
    unfold closing in Cl. rewrite (proj1 (not_true_iff_false _) Cl). unfold delimiter in D. rewrite D. reflexivity. }
  destruct (cpop_cur (fun _ => true) its s b r (fst t)) as [(Hw & Hb & x & E)|(W & its' & s' & E & W' & C' & R' & G' & T' & F' & S')]; auto.
  { intros f _ _; auto. }
  - left. split; [|contradiction]. rewrite Est. unfold step_delimiter. cbn [st p_ai cur_ai negb].
    change (mkSt _ _ r (fst t) true _) with (st its (CDone s b) r (fst t)). rewrite E. cbn. congruence.
  - destruct its' as [|x its'].
    + left. split; [|intros _; rewrite <- F'; simpl; auto]. rewrite Est. unfold step_delimiter. cbn [st p_ai cur_ai negb].
      change (mkSt _ _ r (fst t) true _) with (st its (CDone s b) r (fst t)). rewrite E. cbn. unfold ERROR. congruence.
    + destruct x as [op u|l op u|l g u|o|f u o done]; try (simpl in S'; discriminate).
      * left. split; [|intros _; rewrite <- F'; simpl; auto]. rewrite Est. unfold step_delimiter. cbn [st p_ai cur_ai negb].
        change (mkSt _ _ r (fst t) true _) with (st its (CDone s b) r (fst t)). rewrite E.
        cbn [rbind negb p_ops iops flat_map item_ops app]. simpl in G'. destruct G' as [_ G'].
        pose proof (iops_nf _ _ _ G') as N. unfold iops in N. destruct (flat_map item_ops its') as [|[[top|] a j] rest]; simpl.
        -- unfold ERROR. congruence.
        -- simpl in N. destruct (placement_eqb_spec (o_place top) PFunction); [contradiction|]. unfold ERROR; congruence.
        -- congruence.
      * right. split; auto. exists f, u, o, done, its', s'. simpl in G'.
        destruct G' as (G1 & G2 & G3 & G4 & G5 & G6).
        split; [|split; [|split]].
        -- unfold st at 1. cbn [cur_ai cur_ap]. erewrite step_delim; [|exact D| |exact E].
           2:{ eapply named_place; eauto. }
           unfold st. cbn [cur_nodes cur_ops cur_ai cur_ap app iops inodes flat_map item_ops item_nodes inc].
           rewrite app_length, map_app, rev_app_distr. simpl. rewrite Nat.add_1_r. reflexivity.
        -- split; [exact I|]. cbn. conjs; auto; try apply G1.
           ++ clear - G5 W' C' D. induction done as [|[x d] done IH]; cbn in *; intuition auto.
           ++ unfold flat_done. rewrite flat_map_app. simpl. rewrite !app_nil_r.
              replace (u :: o :: flat_map (fun p => flatten (fst p) ++ [snd p]) done ++ flatten s' ++ [t])
                with ((u :: o :: flat_done done ++ flatten s') ++ [t]) by (simpl; rewrite <- app_assoc; auto).
              apply good_more; auto.
        -- unfold toks. cbn [cur_toks]. rewrite <- T'. cbn [tokens item_toks]. rewrite <- tokens_app.
           unfold flat_done. rewrite flat_map_app. simpl. rewrite !app_nil_r, <- !app_assoc. reflexivity.
        -- rewrite <- F'. reflexivity.
Qed.

Lemma step_other : forall s t, blank t = false -> step_glue pc (set_tok s (fst t)) (snd t) = Ok (Next (set_tok s (fst t))) ->
  step s (fst t) (snd t) = step_main strtod pc (set_tok s (fst t)) (fst t) (snd t).
Proof. intros s t B E. unfold M_Parser.step. unfold blank in B. cbv zeta. rewrite B, E. reflexivity. Qed.

Definition on_operator (its : list item) : bool :=
  match its with IPre _ _ :: _ | IInf _ _ _ :: _ | IGlue _ _ _ :: _ => true | _ => false end.

Lemma c_close_none : forall its t r k x, inv its CNone -> closing t -> on_operator its = false ->
  step (st its CNone r k) (fst t) (snd t) = Ok (Next x) ->
  exists f u o rest, its = IArg f u o [] :: rest /\ x = st rest (CDone (SEmpty f u o t) false) r (fst t)
    /\ inv rest (CDone (SEmpty f u o t) false)
    /\ toks rest (CDone (SEmpty f u o t) false) = toks its CNone ++ [t].
Proof.
  intros its t r k x [_ G] C Hop E.
  destruct (closing_cases t C) as (B & O & _).
  destruct its as [|[op u|l op u|l g u|o|f u o done] its]; try discriminate.
  - exfalso. rewrite step_other in E by (auto; apply glue_skip; auto).
    unfold step_main in E. unfold opening in O. rewrite (proj1 (not_true_iff_false _) O) in E.
    unfold closing in C. rewrite C in E. cbn in E. discriminate.
  - exfalso. rewrite step_other in E by (auto; apply glue_skip; auto).
    unfold step_main in E. unfold opening in O. rewrite (proj1 (not_true_iff_false _) O) in E.
    unfold closing in C. rewrite C in E. cbn [set_tok st cur_ap p_ap] in E.
    unfold step_closing in E. rewrite pop_stops in E by exact I. cbn [rbind negb p_ops st cur_ops app iops flat_map item_ops] in E.
    unfold op_pop_and_insert in E. cbn [p_ops od_op rbind] in E. simpl in G. destruct G as [_ G].
    pose proof (iops_nf _ _ _ G) as N. unfold iops in N. cbn in E. destruct (flat_map item_ops its) as [|[[top|] a j] rest]; cbn in E; try discriminate.
    simpl in N. destruct (placement_eqb_spec (o_place top) PFunction); [contradiction|]. simpl in E. discriminate.
  - destruct done as [|dd done].
    + simpl in G. destruct G as (G1 & G2 & G3 & G4 & _ & G6).
      exists f, u, o, its. split; auto.
      unfold st in E. cbn [cur_nodes cur_ops cur_ai cur_ap app iops flat_map item_ops List.length] in E.
      rewrite step_close_empty in E; auto. 2:{ eapply named_place; eauto. }
      inversion E. split; [reflexivity|]. split.
      * split; cbn; [conjs; auto|]. apply (good_more its [u; o] [t]); auto.
      * unfold toks. simpl. rewrite <- tokens_app. reflexivity.
    + exfalso. rewrite step_other in E by (auto; apply glue_skip; auto).
      unfold step_main in E. unfold opening in O. rewrite (proj1 (not_true_iff_false _) O) in E.
      unfold closing in C. rewrite C in E. cbn [set_tok st cur_ap p_ap] in E.
      unfold step_closing in E. rewrite pop_stops in E by exact I. cbn [rbind negb p_ops st cur_ops app iops flat_map item_ops] in E.
      unfold op_pop_and_insert in E. cbn [p_ops od_op rbind] in E. cbn in E. rewrite andb_false_r in E. discriminate.
Qed.

(** Every token the parser accepts extends the configuration by that token. *)
Lemma c_step : forall its c t r k x, inv its c -> blank t = false ->
  (closing t -> c = CNone -> on_operator its = false) ->
  step (st its c r k) (fst t) (snd t) = Ok (Next x) ->
  exists its' c', x = st its' c' r (fst t) /\ inv its' c' /\ toks its' c' = toks its c ++ [t].
Proof.
  intros its c t r k x I0 B Hd E.
  assert (Dec : opening t \/ closing t \/ delimiter t \/ plain t).
  { unfold plain, opening, closing, delimiter.
    destruct (is_opening_parenthesis (snd t)); auto. destruct (is_closing_parenthesis (snd t)); auto.
    destruct (is_delimiter (snd t)); auto. right; right; right. conjs; auto. }
  (* waiting for a parameter list *)
  destruct c as [|f u|s b].
  2:{ destruct Dec as [O|H].
      - destruct I0 as [Ic G]. destruct (c_open its (CWait f u) t r k Ic) as (its' & E' & I' & T' & _); eauto.
        { apply good_more; auto. }
        rewrite E' in E. inversion E. eauto.
      - exfalso. assert (On : ~ opening t).
        { destruct H as [H|[H|H]]; [apply closing_cases in H|apply delimiter_cases in H|destruct H as (_ & H & _)]; tauto. }
        rewrite step_other in E by (auto; apply glue_skip; auto).
        unfold step_main in E. unfold opening in On. rewrite (proj1 (not_true_iff_false _) On) in E. cbn in E. discriminate. }
  - (* operand position *)
    destruct Dec as [O|[C|[D|P]]].
    + destruct I0 as [Ic G]. destruct (c_open its CNone t r k Ic) as (its' & E' & I' & T' & _); auto.
      { apply good_more; auto. }
      rewrite E' in E. inversion E. eauto.
    + destruct (c_close_none its t r k x I0 C (Hd C eq_refl) E) as (f & u & o & rest & -> & -> & I' & T').
      eauto.
    + exfalso. destruct (delimiter_cases t D) as (_ & O & C).
      rewrite step_other in E by (auto; apply glue_skip; auto).
      unfold step_main in E. unfold opening in O. rewrite (proj1 (not_true_iff_false _) O) in E.
      unfold closing in C. rewrite (proj1 (not_true_iff_false _) C) in E. unfold delimiter in D. rewrite D in E.
      cbn in E. discriminate.
    + destruct I0 as [_ G]. apply (good_more _ _ [t]) in G. simpl in G.
      destruct (c_operand its t r k G P) as [(c & E' & I' & T' & _)|[(op & _ & _ & E' & I')|(y & E' & _)]].
      * rewrite E' in E. inversion E. exists its, c. split; auto. split; auto.
        unfold toks. rewrite T'. simpl. rewrite <- tokens_app. reflexivity.
      * rewrite E' in E. inversion E. exists (IPre op t :: its), CNone. split; auto. split; auto.
        unfold toks. simpl. rewrite <- tokens_app. reflexivity.
      * rewrite E' in E. discriminate.
  - (* behind an operand *)
    destruct Dec as [O|[C|[D|P]]].
    + destruct (pc_glue pc) as [g|] eqn:Eg.
      * destruct (pc_lookup pc PInfix (snd t)) eqn:E1; [|destruct (pc_lookup pc PPostfix (snd t)) eqn:E2].
        -- exfalso. rewrite step_other in E by (auto; apply (glue_skip_infix pc _ _ o); auto).
           unfold step_main in E. unfold opening in O. rewrite O in E. cbn in E. discriminate.
        -- exfalso. rewrite step_other in E by (auto; apply (glue_skip_postfix pc _ _ o); auto).
           unfold step_main in E. unfold opening in O. rewrite O in E. cbn in E. discriminate.
        -- destruct (opening_cases t O) as (_ & O1 & O2).
           destruct (c_glue its s b t g r k I0 Eg) as [(_ & y & Ey)|(_ & its' & l & rest & -> & E' & G' & T' & _)]; auto.
           { rewrite Ey in E; discriminate. }
           rewrite E' in E.
           destruct (c_open (IGlue l g t :: rest) CNone t r (fst t) I) as (its'' & E'' & I'' & T'' & _); auto.
           rewrite E'' in E. inversion E. exists its'', CNone. split; auto. split; auto.
           rewrite T''. unfold toks in *. cbn [cur_toks]. rewrite <- tokens_app. exact T'.
      * exfalso. rewrite step_other in E by (auto; unfold step_glue; rewrite Eg; auto).
        unfold step_main in E. unfold opening in O. rewrite O in E. cbn in E. discriminate.
    + destruct (c_close its s b t r k I0 C) as [((y & Ey) & _)|(_ & its' & s' & b' & E' & I' & T' & _)].
      * rewrite Ey in E; discriminate.
      * rewrite E' in E. inversion E. eauto.
    + destruct (c_delim its s b t r k I0 D) as [(Hn & _)|(_ & f & u & o & done & rest & y & E' & I' & T' & _)].
      * exfalso. eapply Hn; eauto.
      * rewrite E' in E. inversion E. eauto.
    + destruct (pc_lookup pc PInfix (snd t)) as [op|] eqn:E1; [|destruct (pc_lookup pc PPostfix (snd t)) as [op|] eqn:E2].
      * destruct (c_infix its s b t op r k I0 P E1) as [(_ & y & Ey)|(_ & its' & E' & I' & T' & _)].
        -- rewrite Ey in E; discriminate.
        -- rewrite E' in E. inversion E. eauto.
      * destruct (c_postfix its s b t op r k I0 P E1 E2) as [(_ & y & Ey)|(_ & its' & s' & E' & I' & T' & _)].
        -- rewrite Ey in E; discriminate.
        -- rewrite E' in E. inversion E. eauto.
      * destruct (pc_glue pc) as [g|] eqn:Eg.
        -- destruct P as (P0 & P1 & P2 & P3).
           destruct (c_glue its s b t g r k I0 Eg) as [(_ & y & Ey)|(_ & its' & l & rest & -> & E' & G' & T' & _)]; auto.
           { rewrite Ey in E; discriminate. }
           rewrite E' in E.
           destruct (c_operand (IGlue l g t :: rest) t r (fst t) G' (conj P0 (conj P1 (conj P2 P3))))
             as [(c & E'' & I'' & T'' & _)|[(op & _ & _ & E'' & I'')|(y & E'' & _)]].
           ++ rewrite E'' in E. inversion E. exists (IGlue l g t :: rest), c. split; auto. split; auto.
              unfold toks. rewrite T''. exact T'.
           ++ rewrite E'' in E. inversion E. exists (IPre op t :: IGlue l g t :: rest), CNone. split; auto.
           ++ rewrite E'' in E. discriminate.
        -- exfalso. rewrite step_other in E by (auto; unfold step_glue; rewrite Eg; auto).
           rewrite main_plain in E by auto. unfold step_operator in E. cbn [set_tok st cur_ai p_ai negb] in E.
           rewrite E1, E2 in E. discriminate.
Qed.

Lemma tokens_last : forall its a x, tokens its (a ++ [x]) = tokens its a ++ [x].
Proof. intros. apply tokens_app. Qed.

Lemma frames_nil_ops : forall its, frames its = [] -> stops (fun _ => true) (iops its) -> its = [].
Proof. intros [|[| | | |] its]; simpl; auto; discriminate. Qed.

Lemma c_conclude : forall its c k n t, inv its c -> conclude (Ok (Next (st its c PERR_SUCCESS k))) n = Ok (PTree t) ->
  exists s, wfs s /\ correct s /\ t = erase s /\ toks its c = flatten s.
Proof.
  intros its c k n t I0 E. unfold conclude in E. cbn [rbind] in E. unfold finish in E.
  destruct c as [|f u|s b].
  - cbn in E. discriminate.
  - cbn in E. discriminate.
  - cbn [set_tok st cur_ap cur_ai p_ap p_ai negb] in E.
    change (set_tok (st its (CDone s b) PERR_SUCCESS k) n) with (st its (CDone s b) PERR_SUCCESS n) in E.
    unfold pop_rest in E.
    destruct (cpop_cur (fun _ => true) its s b PERR_SUCCESS n) as [(Hw & Hb & x & Ex)|(W & its' & s' & Ex & W' & C' & R' & G' & T' & F' & S')]; auto.
    { intros ? ? ?; auto. }
    + exfalso. cbn [p_nodes p_ops p_res p_ai p_ap] in E.
      change (mkSt _ _ PERR_SUCCESS n true _) with (st its (CDone s b) PERR_SUCCESS n) in E.
      rewrite Ex in E. cbn in E. unfold at_exit in E. destruct (perr_is_success (p_res x)); discriminate.
    + cbn [p_nodes p_ops p_res p_ai p_ap] in E.
      change (mkSt _ _ PERR_SUCCESS n true _) with (st its (CDone s b) PERR_SUCCESS n) in E.
      rewrite Ex in E. cbn [rbind negb p_ops] in E.
      destruct its' as [|i its'].
      * cbn in E. inversion E. exists s'. conjs; auto.
      * exfalso. destruct i as [op u|l op u|l g u|o|f u o done]; try (simpl in S'; discriminate); cbn in E; discriminate.
Qed.

(** ** Acceptance *)
Lemma run_cons : forall s t ts y, step s (fst t) (snd t) = Ok (Next y) -> run strtod pc s (t :: ts) = run strtod pc y ts.
Proof. intros. cbn [run]. rewrite H. reflexivity. Qed.
Lemma run_then : forall a b s y, run strtod pc s a = Ok (Next y) -> run strtod pc s (a ++ b) = run strtod pc y b.
Proof. intros. rewrite run_app, H. reflexivity. Qed.

Lemma c_accept :
  (forall s, wfs s -> forall its r k, good its [first s] [] ->
     exists its' s' b' k', run strtod pc (st its CNone r k) (flatten s) = Ok (Next (st its' (CDone s' b') r k'))
       /\ inv its' (CDone s' b') /\ wfs s' /\ frames its' = frames its
       /\ toks its' (CDone s' b') = tokens its [] ++ flatten s)
  /\ (forall a, wfa a -> forall f u o done rest r k, inv (IArg f u o done :: rest) CNone ->
     exists its' args k', run strtod pc (st (IArg f u o done :: rest) CNone r k) (flatten_args a)
                         = Ok (Next (st its' (CDone (SFun f u o args) false) r k'))
       /\ inv its' (CDone (SFun f u o args) false) /\ nargs args = List.length done + nargs a /\ frames its' = frames rest
       /\ toks its' (CDone (SFun f u o args) false) = toks (IArg f u o done :: rest) CNone ++ flatten_args a).
Proof.
  apply sterm_sargs_ind.
  - intros t v W its r k G. cbn in W. destruct W as (P & W1 & W2 & W3).
    exists its, (SConst t v), true, (fst t). split.
    + cbn [flatten]. erewrite run_cons; [|unfold st; cbn [cur_nodes cur_ops cur_ai cur_ap app]; apply (step_const strtod pc t v); auto]. reflexivity.
    + split; [split; cbn; auto|]. split; [cbn; auto|]. split; [auto|]. unfold toks. cbn [cur_toks flatten]. apply (tokens_app its []).
  - intros t W its r k G. cbn in W. destruct W as (P & W1 & W2 & W3).
    exists its, (SVar t), true, (fst t). split.
    + cbn [flatten]. erewrite run_cons; [|unfold st; cbn [cur_nodes cur_ops cur_ai cur_ap app]; apply (step_var strtod pc t); auto]. reflexivity.
    + split; [split; cbn; auto|]. split; [cbn; auto|]. split; [auto|]. unfold toks. cbn [cur_toks flatten]. apply (tokens_app its []).
  - intros op t W its r k G. cbn in W. destruct W as (P & W1 & W2).
    exists its, (SNull op t), true, (fst t). split.
    + cbn [flatten]. erewrite run_cons; [|unfold st; cbn [cur_nodes cur_ops cur_ai cur_ap app]; apply (step_null strtod pc U t op); auto]. reflexivity.
    + split; [split; cbn; auto|]. split; [cbn; auto|]. split; [auto|]. unfold toks. cbn [cur_toks flatten]. apply (tokens_app its []).
  - (* paren *) intros o s IH c W its r k G. cbn in W. destruct W as (Wo & W & Wc). cbn [flatten].
    destruct (c_open its CNone o r k I) as (its1 & E1 & I1 & T1 & ->); auto.
    rewrite (run_cons _ _ _ _ E1).
    destruct (IH W (IPar o :: its) r (fst o)) as (its2 & s2 & b2 & k2 & E2 & I2 & W2 & F2 & K2).
    { apply (good_more _ [] [first s]). apply I1. }
    rewrite (run_then _ _ _ _ E2).
    destruct (c_close its2 s2 b2 c r k2 I2 Wc) as [(_ & Hf)|(_ & its3 & s3 & b3 & E3 & I3 & T3 & fr & F3 & Hfr)].
    { specialize (Hf W2). rewrite F2 in Hf. discriminate. }
    rewrite F2 in F3. cbn in F3. inversion F3. subst fr.
    exists its3, s3, b3, (fst c). rewrite (run_cons _ _ _ _ E3). split; [reflexivity|]. split; auto. split; [subst b3; apply I3|]. split; auto.
    rewrite T3, K2. change (tokens (IPar o :: its) []) with (toks (IPar o :: its) CNone). rewrite T1. unfold toks. cbn [cur_toks].
    rewrite <- !app_assoc. reflexivity.
  - (* function *) intros op t o args IH W its r k G. cbn in W. destruct W as (P & W1 & W2 & W3 & W4 & W5). cbn [flatten].
    erewrite run_cons; [|unfold st; cbn [cur_nodes cur_ops cur_ai cur_ap app]; apply (step_function strtod pc U t op); auto].
    change (mkSt (inodes its) (mkOd (Some op) (Some 0) (fst t) :: iops its) r (fst t) false true) with (st its (CWait op t) r (fst t)).
    cbn [first] in G.
    assert (Hc : cur_good (CWait op t)) by (cbn; auto).
    destruct (c_open its (CWait op t) o r (fst t) Hc (or_intror (ex_intro _ op (ex_intro _ t eq_refl)))
                (good_more _ [t] [o] _ G) W4) as (its1 & E1 & I1 & T1 & ->).
    rewrite (run_cons _ _ _ _ E1).
    destruct (IH W5 op t o [] its r (fst o) I1) as (its2 & args2 & k2 & E2 & I2 & N2 & F2 & K2).
    exists its2, (SFun op t o args2), false, k2. split; auto. split; auto. split; [|split; auto].
    2:{ rewrite K2, T1. unfold toks. cbn [cur_toks]. change [t] with ([] ++ [t]). rewrite (tokens_app its [] [t]), <- !app_assoc. reflexivity. }
    cbn. destruct I2 as [I2 _]. cbn in I2. destruct I2 as ((J1 & J2 & J3 & J4 & J5) & _). conjs; auto.
    simpl in N2. rewrite N2. auto.
  - (* empty *) intros op t o c W its r k G. cbn in W. destruct W as (P & W1 & W2 & W3 & W4). cbn [flatten].
    assert (Ha : o_arity op <> Some 0) by congruence.
    erewrite run_cons; [|unfold st; cbn [cur_nodes cur_ops cur_ai cur_ap app]; apply (step_function strtod pc U t op); auto].
    change (mkSt (inodes its) (mkOd (Some op) (Some 0) (fst t) :: iops its) r (fst t) false true) with (st its (CWait op t) r (fst t)).
    cbn [first] in G.
    assert (Hc : cur_good (CWait op t)) by (cbn; auto).
    destruct (c_open its (CWait op t) o r (fst t) Hc (or_intror (ex_intro _ op (ex_intro _ t eq_refl)))
                (good_more _ [t] [o] _ G) W3) as (its1 & E1 & I1 & T1 & ->).
    exists its, (SEmpty op t o c), false, (fst c).
    rewrite (run_cons _ _ _ _ E1). cbn [run].
    unfold st at 1. cbn [cur_nodes cur_ops cur_ai cur_ap app iops flat_map item_ops List.length].
    rewrite step_close_empty by (auto; eapply named_place; eauto). cbn [rbind].
    split; [reflexivity|]. split; [|split; [cbn; auto|split; [auto|unfold toks; cbn [cur_toks flatten]; apply (tokens_app its [])]]].
    split; cbn; [conjs; auto|]. apply (good_more _ [t] [o; c]); auto.
  - (* prefix *) intros op t s IH W its r k G. cbn in W. destruct W as (P & W1 & W2 & W3). cbn [flatten].
    erewrite run_cons; [|unfold st; cbn [cur_nodes cur_ops cur_ai cur_ap app]; apply (step_prefix strtod pc U t op); auto].
    change (mkSt (inodes its) (mkOd (Some op) (Some 1) (fst t) :: iops its) r (fst t) false false) with (st (IPre op t :: its) CNone r (fst t)).
    destruct (IH W3 (IPre op t :: its) r (fst t)) as (its2 & s2 & b2 & k2 & E2 & I2 & W2' & F2 & K2).
    { cbn. conjs; auto. apply (good_more _ [t] [first s]); auto. }
    exists its2, s2, b2, k2. conjs; auto. rewrite K2. cbn [tokens item_toks]. rewrite app_nil_r. change [t] with ([] ++ [t]). rewrite (tokens_app its [] [t]), <- app_assoc. reflexivity.
  - (* postfix *) intros op s IH t W its r k G. cbn in W. destruct W as (W & P & W1 & W2). cbn [flatten]. cbn [first] in G.
    destruct (IH W its r k G) as (its2 & s2 & b2 & k2 & E2 & I2 & W2' & F2 & K2).
    rewrite (run_then _ _ _ _ E2).
    destruct (c_postfix its2 s2 b2 t op r k2 I2 P W1 W2) as [(Hw & _)|(_ & its3 & s3 & E3 & I3 & T3 & F3)]; [contradiction|].
    exists its3, s3, true, (fst t). rewrite (run_cons _ _ _ _ E3). split; [reflexivity|]. split; auto. split; [apply I3|]. split; [congruence|].
    rewrite T3, K2, <- app_assoc. reflexivity.
  - (* infix *) intros op l IHl t rr IHr W its r k G. cbn in W. destruct W as (Wl & P & W1 & Wr). cbn [flatten]. cbn [first] in G.
    destruct (IHl Wl its r k G) as (its2 & s2 & b2 & k2 & E2 & I2 & W2' & F2 & K2).
    rewrite (run_then _ _ _ _ E2).
    destruct (c_infix its2 s2 b2 t op r k2 I2 P W1) as [(Hw & _)|(_ & its3 & E3 & I3 & T3 & F3 & _)]; [contradiction|].
    rewrite (run_cons _ _ _ _ E3).
    destruct (IHr Wr its3 r (fst t)) as (its4 & s4 & b4 & k4 & E4 & I4 & W4 & F4 & K4).
    { apply (good_more _ [] [first rr]). apply I3. }
    exists its4, s4, b4, k4. split; auto. split; auto. split; auto. split; [congruence|].
    rewrite K4. change (tokens its3 []) with (toks its3 CNone). rewrite T3, K2, <- !app_assoc. reflexivity.
  - (* glue *) intros g l IHl rr IHr W its r k G. cbn in W. destruct W as (Wg & Wl & Wr & W1 & W2). cbn [flatten]. cbn [first] in G.
    destruct (IHl Wl its r k G) as (its2 & s2 & b2 & k2 & E2 & I2 & W2' & F2 & K2).
    rewrite (run_then _ _ _ _ E2).
    destruct (first_head rr) as (rest & Ef). destruct (first_inner strtod pc rr Wr) as (B1 & B2 & B3).
    destruct (c_glue its2 s2 b2 (first rr) g r k2 I2 Wg) as [(Hw & _)|(_ & its3 & l3 & rest3 & -> & E3 & G3 & T3 & F3)]; auto; [contradiction|].
    destruct (IHr Wr (IGlue l3 g (first rr) :: rest3) r (fst (first rr)) G3) as (its4 & s4 & b4 & k4 & E4 & I4 & W4 & F4 & K4).
    exists its4, s4, b4, k4. split; [|split; auto; split; auto; split; [congruence|]].
    2:{ rewrite K4. change [first rr] with ([] ++ [first rr]) in T3 at 1. rewrite (tokens_app _ [] [first rr]) in T3. apply app_inv_tail in T3. rewrite T3, K2, <- app_assoc. reflexivity. }
    rewrite Ef in *. cbn [run] in *. rewrite E3. exact E4.
  - (* last argument *) intros s IH c W f u o done rest r k I0. cbn in W. destruct W as (W & Wc). cbn [flatten_args].
    destruct (IH W (IArg f u o done :: rest) r k) as (its2 & s2 & b2 & k2 & E2 & I2 & W2' & F2 & K2).
    { apply (good_more _ [] [first s]). apply I0. }
    rewrite (run_then _ _ _ _ E2).
    destruct (c_close its2 s2 b2 c r k2 I2 Wc) as [(_ & Hf)|(_ & its3 & s3 & b3 & E3 & I3 & T3 & fr & F3 & Hfr)].
    { specialize (Hf W2'). rewrite F2 in Hf. discriminate. }
    rewrite F2 in F3. cbn in F3. inversion F3. subst fr. destruct Hfr as (-> & x & ->).
    exists its3, (mk_args done x c), (fst c). rewrite (run_cons _ _ _ _ E3). split; [reflexivity|]. split; auto.
    split; [rewrite mk_args_nargs; simpl; lia|]. split; auto.
    rewrite T3, K2. unfold toks at 1. rewrite <- app_assoc. reflexivity.
  - (* more arguments *) intros s IH d a IHa W f u o done rest r k I0. cbn in W. destruct W as (W & Wd & Wa). cbn [flatten_args].
    destruct (IH W (IArg f u o done :: rest) r k) as (its2 & s2 & b2 & k2 & E2 & I2 & W2' & F2 & K2).
    { apply (good_more _ [] [first s]). apply I0. }
    rewrite (run_then _ _ _ _ E2).
    destruct (c_delim its2 s2 b2 d r k2 I2 Wd) as [(_ & Hf)|(_ & f' & u' & o' & done' & rest' & x & E3 & I3 & T3 & F3)].
    { specialize (Hf W2'). rewrite F2 in Hf. contradiction. }
    rewrite F2 in F3. cbn in F3. inversion F3. subst f' u' o' done'.
    rewrite (run_cons _ _ _ _ E3).
    destruct (IHa Wa f u o (done ++ [(x, d)]) rest' r (fst d) I3) as (its4 & args & k4 & E4 & I4 & N4 & F4 & K4).
    exists its4, args, k4. split; auto. split; auto. split; [rewrite N4, app_length; simpl; lia|]. split; [unfold frames in *; congruence|].
    rewrite K4, T3, K2. rewrite <- !app_assoc. reflexivity.
Qed.

Lemma parse_accept : forall s n, wfs s ->
  exists s', wfs s' /\ correct s' /\ flatten s' = flatten s /\ conclude (run strtod pc init_pstate (flatten s)) n = Ok (PTree (erase s')).
Proof.
  intros s n W. change init_pstate with (st [] CNone PERR_SUCCESS 0).
  destruct (proj1 c_accept s W [] PERR_SUCCESS 0 I) as (its & s' & b & k & E & I' & W' & F & K).
  rewrite E. unfold conclude. cbn [rbind]. unfold finish. cbn [set_tok st cur_ap cur_ai p_ap p_ai negb].
  change (set_tok (st its (CDone s' b) PERR_SUCCESS k) n) with (st its (CDone s' b) PERR_SUCCESS n).
  unfold pop_rest.
  destruct (cpop_cur (fun _ => true) its s' b PERR_SUCCESS n) as [(Hw & _)|(_ & its2 & s2 & Ex & W2 & C2 & R2 & G2 & T2 & F2 & S2)]; auto.
  { intros ? ? ?; auto. }
  { contradiction. }
  cbn [p_nodes p_ops p_res p_ai p_ap].
  change (mkSt _ _ PERR_SUCCESS n true _) with (st its (CDone s' b) PERR_SUCCESS n).
  rewrite Ex. rewrite F in F2. cbn in F2. pose proof (frames_nil_ops its2 F2 S2) as ->. exists s2. conjs; auto. unfold toks in K. cbn in K, T2. congruence.
Qed.
End Sound.
