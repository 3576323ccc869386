(** Printing as an expression of the grammar; the printed text as tokens. *)
From Coq Require Import List Ascii String NArith ZArith Bool Lia Arith.
From Verif Require Import M_Base M_StringUtil M_LinkedList M_Trie M_Tree M_Context M_Tokenizer M_Parser M_Printer
  S_Util S_Engine S_Parse S_Print L_LinkedList L_Trie L_Tokenizer L_Context P_Context L_ArithCtx L_SetUp L_Lex L_Parser L_ParserBlank.
Import ListNotations.
Open Scope nat_scope.
Open Scope res_scope.

(** ** Infix operators of the same precedence associate to the same side *)
Lemma reg_run_consistent : forall r ops r' xs, reg_run r ops r' xs ->
  (forall a b, In a r -> In b r -> ~ conflicting a b) -> (forall a b, In a r' -> In b r' -> ~ conflicting a b).
Proof.
  intros r ops r' xs R. induction R as [|r o r1 x ops r2 xs St R IH]; auto. intros H. apply IH. clear IH R.
  inversion St as [? o0 o' A D|? ? A|? n p o0 F|? n p F|? n p]; subst; auto.
  - intros a b Ha Hb. apply in_app_iff in Ha, Hb. destruct A as [_ A]. destruct D as (_ & _ & D1 & D2 & D3).
    simpl in Ha, Hb. unfold conflicting in *.
    destruct Ha as [Ha|[<-|[]]], Hb as [Hb|[<-|[]]].
    + apply H; auto.
    + intros (P1 & P2 & P3 & P4). apply (A a Ha). rewrite D1, D2, D3. repeat split; auto.
    + intros (P1 & P2 & P3 & P4). apply (A b Hb). rewrite D1, D2, D3. repeat split; auto.
    + intros (_ & _ & _ & P). congruence.
  - intros a b Ha Hb. apply filter_In in Ha, Hb. apply H; tauto.
Qed.
Lemma set_up_consistent : forall c, set_up c -> forall a b, registered c a -> registered c b ->
  o_place a = PInfix -> o_place b = PInfix -> o_prec a = o_prec b -> o_assoc a = o_assoc b.
Proof.
  intros c (ops & c0 & outs & r & g & b & F & B & E & R & D & G & S) x y Hx Hy Px Py Pr.
  destruct (ctx_run_sim ops ctx_create [] create_crep F) as (c' & r' & xs & E' & C & RR).
  rewrite E in E'. inversion E'; subst c' xs. pose proof (reg_run_det _ _ _ _ _ R RR) as <-. clear E' RR.
  destruct (glue_keeps _ _ _ _ S) as (H1 & H2 & H3 & H4 & H5).
  assert (C' : crep c r) by (unfold crep in *; rewrite H1, H2, H3, H4; exact C).
  unfold registered in Hx, Hy. rewrite (lookup_crep _ _ _ _ C') in Hx. rewrite (lookup_crep _ _ _ _ C') in Hy. inversion Hx as [Fx]. inversion Hy as [Fy].
  apply reg_find_In in Fx, Fy.
  destruct (o_assoc x) eqn:Ax, (o_assoc y) eqn:Ay; auto; exfalso;
    apply (reg_run_consistent _ _ _ _ R ltac:(intros ? ? []) x y (proj1 Fx) (proj1 Fy)); unfold conflicting; rewrite Ax, Ay; repeat split; auto; discriminate.
Qed.

(** ** The expression of the grammar that is printed, all positions 0 *)
Definition tkn (t : cstr) : tk := (0, t).
Definition sparen (s : sterm) : sterm := SParen (tkn OPENING_P) s (tkn CLOSING_P).
Definition swrap (b : bool) (s : sterm) : sterm := if b then sparen s else s.

Section Print.
Variable strtod : cstr -> option double.
Variable fmt : double -> cstr.

Definition pre_cond (op : operator) (o : operator) : bool := o_prec o <=? o_prec op.
Definition post_cond (op : operator) (o : operator) : bool := o_prec o <? o_prec op.
Definition left_cond (op : operator) (o : operator) : bool :=
  (o_prec o <? o_prec op) || ((o_prec o =? o_prec op) && assoc_eqb (o_assoc op) ARight).
Definition right_cond (op : operator) (o : operator) : bool :=
  (o_prec o <? o_prec op) || ((o_prec o =? o_prec op) && assoc_eqb (o_assoc op) ALeft).

Fixpoint pexpr (n : node) (l r : bool) {struct n} : sterm :=
  match n with
  | NConst v _ => SConst (tkn (fmt v)) v
  | NVar x _ _ => SVar (tkn x)
  | NOp op cs _ =>
    match o_place op with
    | PPrefix =>
      match cs with
      | c0 :: _ => swrap l (SPre op (tkn (o_name op))
                     (if child_wrapped (pre_cond op) c0 then sparen (pexpr c0 false false) else pexpr c0 true (negb l && r)))
      | [] => SVar (tkn [])
      end
    | PPostfix =>
      match cs with
      | c0 :: _ => swrap r (SPost op
                     (if child_wrapped (post_cond op) c0 then sparen (pexpr c0 false false) else pexpr c0 (l && negb r) true)
                     (tkn (o_name op)))
      | [] => SVar (tkn [])
      end
    | PFunction =>
      if arity_zero (o_arity op) then SNull op (tkn (o_name op))
      else
        match cs with
        | [] => SEmpty op (tkn (o_name op)) (tkn OPENING_P) (tkn CLOSING_P)
        | c :: l => SFun op (tkn (o_name op)) (tkn OPENING_P)
           ((fix args (s : sterm) (l : list node) : sargs :=
               match l with
               | [] => ALast s (tkn CLOSING_P)
               | c' :: l' => AMore s (tkn (str ",")) (args (pexpr c' false false) l')
               end) (pexpr c false false) l)
        end
    | PInfix =>
      match cs with
      | c0 :: c1 :: _ => SInf op
          (if child_wrapped (left_cond op) c0 then sparen (pexpr c0 false false) else pexpr c0 l true)
          (tkn (o_name op))
          (if child_wrapped (right_cond op) c1 then sparen (pexpr c1 false false) else pexpr c1 true r)
      | _ => SVar (tkn [])
      end
    end
  end.
Fixpoint pargs (c : node) (l : list node) : sargs :=
  match l with
  | [] => ALast (pexpr c false false) (tkn CLOSING_P)
  | c' :: l' => AMore (pexpr c false false) (tkn (str ",")) (pargs c' l')
  end.
Lemma pexpr_fun : forall op c l t a b, o_place op = PFunction -> arity_zero (o_arity op) = false ->
  pexpr (NOp op (c :: l) t) a b = SFun op (tkn (o_name op)) (tkn OPENING_P) (pargs c l).
Proof.
  intros op c l t a b P Z. cbn [pexpr]. rewrite P, Z. f_equal. revert c. induction l as [|c' l IH]; intros c; [reflexivity|].
  cbn [pargs]. rewrite <- IH. reflexivity.
Qed.

(** the printed pieces of a function's operands *)
Fixpoint to_args (l : list node) : res (list cstr) :=
  match l with
  | [] => Ok []
  | [c] => to_str fmt false c false false
  | c :: l' => a <- to_str fmt false c false false ;; b <- to_args l' ;; Ok (a ++ [str ","] ++ b)
  end.
Lemma to_args_more : forall x y l,
  to_args (x :: y :: l) = (a <- to_str fmt false x false false ;; b <- to_args (y :: l) ;; Ok (a ++ [str ","] ++ b)).
Proof. reflexivity. Qed.
Lemma to_str_fun : forall op cs t a b, o_place op = PFunction -> arity_zero (o_arity op) = false ->
  to_str fmt false (NOp op cs t) a b = (args <- to_args cs ;; Ok ([o_name op; OPENING_P] ++ args ++ [CLOSING_P])).
Proof.
  intros op cs t a b P Z. cbn [to_str]. rewrite P, Z. f_equal.
Qed.

Lemma printf_plain : forall s, ~ In "%"%char s -> printf_no_args s = Ok s.
Proof.
  induction s as [|c s IH]; intros H; [reflexivity|]. cbn [printf_no_args].
  destruct (ceqb c "%"%char) eqn:E.
  - exfalso. apply H. left. unfold ceqb in E. apply Ascii.eqb_eq in E. auto.
  - rewrite IH; [reflexivity|]. intros X. apply H. right. exact X.
Qed.

Variable c : ctx.
Hypothesis S : set_up c.
Hypothesis P : printable_ctx c.

Notation printable := (printable_tree strtod fmt c).
Lemma printable_all : forall op cs t, printable (NOp op cs t) -> Forall printable cs.
Proof.
  intros op cs t (_ & _ & H). induction cs as [|x l IH]; constructor; [apply H|]. apply IH. apply H.
Qed.
Lemma printable_op : forall op cs t, printable (NOp op cs t) -> registered c op /\ (o_arity op = None \/ o_arity op = Some (List.length cs)).
Proof. intros op cs t H. split; apply H. Qed.

Lemma name_plain : forall o, registered c o -> plain (tkn (o_name o)).
Proof.
  intros o R. destruct P as (NB & ND & _).
  assert (Bl : is_space (hd NUL (o_name o)) = false).
  { destruct (set_up_crep c S) as (r & C & _ & _ & St & _). pose proof R as R'. unfold registered in R'.
    rewrite (lookup_crep _ _ _ _ C) in R'. inversion R' as [F]. apply reg_find_In in F. pose proof (St o (proj1 F)) as H.
    destruct (o_name o) as [|ch n]; [reflexivity|]. inversion H; subst. cbn [hd]. unfold is_space. rewrite ceqb_nat.
    apply Nat.eqb_neq. cbn. lia. }
  assert (Q : is_opening_parenthesis (o_name o) = false /\ is_closing_parenthesis (o_name o) = false).
  { apply (names_no_paren c NB (o_place o) (o_name o)). simpl. unfold registered in R. rewrite R. discriminate. }
  unfold plain, blank, opening, closing, delimiter. cbn [snd tkn]. split; [exact Bl|]. destruct Q as [-> ->].
  split; [discriminate|]. split; [discriminate|]. unfold is_delimiter.
  destruct (streqb_spec (o_name o) (str ",")) as [E|]; [|discriminate]. exfalso. apply (ND o R E).
Qed.
Lemma name_named : forall o, registered c o -> named (view c) (o_place o) (tkn (o_name o)) o.
Proof. intros o R. unfold named. cbn [view pc_lookup snd tkn]. unfold registered in R. rewrite R. reflexivity. Qed.
Lemma unused_no_name : forall n p i, unused c n p -> no_name (view c) p (i, n).
Proof. intros n p i U. unfold no_name. cbn [view pc_lookup snd]. unfold unused in U. rewrite U. reflexivity. Qed.

Lemma place_made : forall op, registered c op -> made op.
Proof.
  intros op R. destruct (set_up_usual c S) as [U _]. apply (U (o_place op) (o_name op) op (name_named op R)).
Qed.

(** *** flatten *)
Definition solid (ps : list cstr) : list tk := filter (fun t => negb (blank t)) (map tkn ps).
Lemma solid_app : forall a b, solid (a ++ b) = solid a ++ solid b.
Proof. intros a b. unfold solid. rewrite map_app, filter_app. reflexivity. Qed.
Lemma solid_cons : forall x a, blank (tkn x) = false -> solid (x :: a) = tkn x :: solid a.
Proof. intros x a H. unfold solid. cbn [map filter]. rewrite H. reflexivity. Qed.
Lemma solid_paren : forall ps, solid (wrap_if true ps) = tkn OPENING_P :: solid ps ++ [tkn CLOSING_P].
Proof. intros ps. unfold wrap_if. cbn [app]. rewrite solid_cons by reflexivity. rewrite solid_app. reflexivity. Qed.

Definition prints (n : node) : Prop := forall l r, exists ps, to_str fmt false n l r = Ok ps /\ solid ps = flatten (pexpr n l r).
Lemma prints_child : forall cond n l r, prints n ->
  exists ps, (if child_wrapped cond n then b <- to_str fmt false n false false ;; Ok (wrap_if true b) else to_str fmt false n l r) = Ok ps
  /\ solid ps = flatten (if child_wrapped cond n then sparen (pexpr n false false) else pexpr n l r).
Proof.
  intros cond n l r H. destruct (child_wrapped cond n).
  - destruct (H false false) as (ps & -> & F). cbn [rbind]. eexists. split; [reflexivity|]. rewrite solid_paren, F. reflexivity.
  - apply H.
Qed.
Lemma solid_wrap : forall b ps s, solid ps = flatten s -> solid (wrap_if b ps) = flatten (swrap b s).
Proof. intros [] ps s H; [rewrite solid_paren, H; reflexivity|exact H]. Qed.

Lemma prints_all : forall n, printable n -> prints n.
Proof.
  intros n. induction n as [v t|x i t|op cs t IH] using node_ind'; intros H.
  - intros l r. exists [fmt v]. split; [reflexivity|]. destruct H as (Pl & _). apply solid_cons. apply Pl.
  - intros l r. exists [x]. split; [reflexivity|]. destruct H as (Pl & _). apply solid_cons. apply Pl.
  - assert (A : Forall prints cs).
    { rewrite Forall_forall in *. intros y Hy. apply IH; auto. pose proof (printable_all _ _ _ H) as Q. rewrite Forall_forall in Q. auto. }
    clear IH. destruct (printable_op _ _ _ H) as (R & Ar). pose proof (place_made op R) as M. pose proof (name_plain op R) as Pl.
    assert (B : blank (tkn (o_name op)) = false) by apply Pl.
    intros l r. unfold made in M. destruct (o_place op) eqn:Ep.
    + rewrite M in Ar. destruct cs as [|c0 [|]]; try (destruct Ar as [Ar|Ar]; discriminate Ar). inversion A as [|? ? A0 _]; subst.
      destruct (prints_child (pre_cond op) c0 true (negb l && r) A0) as (ps & E & F).
      cbn [to_str pexpr]. rewrite Ep.
      destruct P as (_ & _ & Pp & _). destruct (Pp (o_name op) op) as (_ & NP). { rewrite <- Ep. exact R. }
      rewrite (printf_plain _ NP). cbn [rbind]. fold (pre_cond op). rewrite E. cbn [rbind]. eexists. split; [reflexivity|].
      apply solid_wrap. rewrite solid_cons by exact B. cbn [flatten]. rewrite F. reflexivity.
    + destruct M as (M & _). rewrite M in Ar. destruct cs as [|c0 [|c1 [|]]]; try (destruct Ar as [Ar|Ar]; discriminate Ar).
      inversion A as [|? ? A0 A']; subst. inversion A' as [|? ? A1 _]; subst.
      destruct (prints_child (left_cond op) c0 l true A0) as (ps0 & E0 & F0).
      destruct (prints_child (right_cond op) c1 true r A1) as (ps1 & E1 & F1).
      cbn [to_str pexpr]. rewrite Ep. fold (left_cond op). fold (right_cond op). rewrite E0. cbn [rbind]. rewrite E1. cbn [rbind].
      eexists. split; [reflexivity|]. rewrite !solid_app, F0, F1. cbn [flatten]. f_equal.
      destruct (is_letter _); [|rewrite solid_cons by exact B; reflexivity].
      change [str " "; o_name op; str " "] with ([str " "] ++ o_name op :: [str " "]). rewrite solid_app, (solid_cons (o_name op)) by exact B. reflexivity.
    + destruct M as (M & _). rewrite M in Ar. destruct cs as [|c0 [|]]; try (destruct Ar as [Ar|Ar]; discriminate Ar). inversion A as [|? ? A0 _]; subst.
      destruct (prints_child (post_cond op) c0 (l && negb r) true A0) as (ps & E & F).
      cbn [to_str pexpr]. rewrite Ep. fold (post_cond op). rewrite E. cbn [rbind]. eexists. split; [reflexivity|].
      apply solid_wrap. rewrite solid_app, F. cbn [flatten]. rewrite solid_cons by exact B. reflexivity.
    + destruct (arity_zero (o_arity op)) eqn:Z.
      { cbn [to_str pexpr]. rewrite Ep, Z. exists [o_name op]. split; [reflexivity|]. apply solid_cons. exact B. }
      rewrite to_str_fun by assumption. destruct cs as [|c0 cs].
      { cbn [to_args rbind pexpr]. rewrite Ep, Z. eexists. split; [reflexivity|]. cbn [app flatten]. rewrite !solid_cons by (exact B || reflexivity). reflexivity. }
      rewrite pexpr_fun by assumption.
      assert (Q : exists ps, to_args (c0 :: cs) = Ok ps /\ solid ps ++ [tkn CLOSING_P] = flatten_args (pargs c0 cs)).
      { clear Ar H. revert c0 A. induction cs as [|c1 cs IH]; intros c0 A; inversion A as [|? ? A0 A']; subst.
        - destruct (A0 false false) as (ps & E & F). exists ps. split; [exact E|]. rewrite F. reflexivity.
        - destruct (A0 false false) as (ps & E & F). destruct (IH c1 A') as (qs & E' & F').
          rewrite to_args_more, E. cbn [rbind]. rewrite E'. cbn [rbind]. eexists. split; [reflexivity|].
          rewrite !solid_app, <- !app_assoc, F. cbn [pargs flatten_args]. f_equal. cbn [app]. rewrite solid_cons by reflexivity.
          cbn [app]. f_equal. exact F'. }
      destruct Q as (ps & E & F). rewrite E. cbn [rbind]. eexists. split; [reflexivity|].
      cbn [app flatten]. rewrite !solid_cons by (exact B || reflexivity). do 2 f_equal. rewrite solid_app, <- F. reflexivity.
Qed.

(** *** the grammar *)
Lemma wfs_child : forall cond n l r, (forall l r, wfs strtod (view c) (pexpr n l r)) ->
  wfs strtod (view c) (if child_wrapped cond n then sparen (pexpr n false false) else pexpr n l r).
Proof. intros cond n l r H. destruct (child_wrapped cond n); [|apply H]. split; [reflexivity|]. split; [apply H|reflexivity]. Qed.
Lemma wfs_wrap : forall b s, wfs strtod (view c) s -> wfs strtod (view c) (swrap b s).
Proof. intros [] s H; [|exact H]. split; [reflexivity|]. split; [exact H|reflexivity]. Qed.
Lemma nargs_pargs : forall l n, nargs (pargs n l) = Datatypes.S (List.length l).
Proof. induction l as [|x l IH]; intros n; [reflexivity|]. cbn [pargs nargs]. rewrite IH. reflexivity. Qed.

Lemma pexpr_wf : forall n, printable n -> forall l r, wfs strtod (view c) (pexpr n l r).
Proof.
  intros n. induction n as [v t|x i t|op cs t IH] using node_ind'; intros H l r.
  - destruct H as (Pl & U1 & U2 & E). split; [exact Pl|]. split; [apply unused_no_name; exact U1|]. split; [apply unused_no_name; exact U2|exact E].
  - destruct H as (Pl & U & E & L). split; [exact Pl|]. split; [intros p; apply unused_no_name; apply U|]. split; [exact E|exact L].
  - assert (A : Forall (fun n => forall l r, wfs strtod (view c) (pexpr n l r)) cs).
    { rewrite Forall_forall in *. intros y Hy. apply IH; auto. pose proof (printable_all _ _ _ H) as Q. rewrite Forall_forall in Q. auto. }
    clear IH. destruct (printable_op _ _ _ H) as (R & Ar). pose proof (place_made op R) as M. pose proof (name_plain op R) as Pl.
    pose proof (name_named op R) as Nm. unfold made in M. destruct (o_place op) eqn:Ep.
    + rewrite M in Ar. destruct cs as [|c0 [|]]; try (destruct Ar as [Ar|Ar]; discriminate Ar). inversion A as [|? ? A0 _]; subst.
      cbn [pexpr]. rewrite Ep. apply wfs_wrap. split; [exact Pl|]. split.
      { apply unused_no_name. destruct P as (_ & _ & Pp & _). apply (Pp (o_name op) op). rewrite <- Ep. exact R. }
      split; [exact Nm|]. apply wfs_child. exact A0.
    + destruct M as (M & _). rewrite M in Ar. destruct cs as [|c0 [|c1 [|]]]; try (destruct Ar as [Ar|Ar]; discriminate Ar).
      inversion A as [|? ? A0 A']; subst. inversion A' as [|? ? A1 _]; subst.
      cbn [pexpr]. rewrite Ep. split; [apply wfs_child; exact A0|]. split; [exact Pl|]. split; [exact Nm|]. apply wfs_child. exact A1.
    + destruct M as (M & _). rewrite M in Ar. destruct cs as [|c0 [|]]; try (destruct Ar as [Ar|Ar]; discriminate Ar). inversion A as [|? ? A0 _]; subst.
      cbn [pexpr]. rewrite Ep. apply wfs_wrap. split; [apply wfs_child; exact A0|]. split; [exact Pl|]. split; [|exact Nm].
      apply unused_no_name. destruct P as (_ & _ & _ & Pp & _). apply (Pp (o_name op) op). rewrite <- Ep. exact R.
    + destruct (arity_zero (o_arity op)) eqn:Z.
      { cbn [pexpr]. rewrite Ep, Z. split; [exact Pl|]. split; [exact Nm|]. destruct (o_arity op) as [[|]|]; try discriminate Z. reflexivity. }
      destruct cs as [|c0 cs].
      { cbn [pexpr]. rewrite Ep, Z. split; [exact Pl|]. split; [exact Nm|]. split; [|split; reflexivity].
        destruct Ar as [Ar|Ar]; auto. rewrite Ar in Z. discriminate Z. }
      rewrite pexpr_fun by assumption. split; [exact Pl|]. split; [exact Nm|]. split; [intros Y; rewrite Y in Z; discriminate Z|].
      split; [rewrite nargs_pargs; exact Ar|]. split; [reflexivity|].
      clear Ar H. revert c0 A. induction cs as [|c1 cs IH]; intros c0 A; inversion A as [|? ? A0 A']; subst.
      * split; [apply A0|reflexivity].
      * cbn [pargs]. split; [apply A0|]. split; [reflexivity|]. apply IH. exact A'.
Qed.

(** *** precedences *)
Definition root_prec (n : node) (p : nat) : Prop := match n with NOp op _ _ => p = o_prec op | _ => False end.
Definition edge_ok (n : node) (o : operator) : Prop :=
  registered c o /\ exists op cs t, n = NOp op cs t /\ o_prec op <= o_prec o.
Definition good (n : node) : Prop := forall l r,
  correct (pexpr n l r)
  /\ (forall o, In o (left_edge (pexpr n l r)) -> edge_ok n o /\ (o_place o = PInfix \/ o_place o = PPostfix))
  /\ (forall o, In o (right_edge (pexpr n l r)) -> edge_ok n o).
Lemma right_child : forall cond n l r, good n ->
  let s := if child_wrapped cond n then sparen (pexpr n false false) else pexpr n l r in
  correct s
  /\ (forall o, In o (left_edge s) -> registered c o /\ (o_place o = PInfix \/ o_place o = PPostfix)
       /\ exists op cs t, n = NOp op cs t /\ o_prec op <= o_prec o /\ cond op = false)
  /\ (forall o, In o (right_edge s) -> registered c o /\ exists op cs t, n = NOp op cs t /\ o_prec op <= o_prec o /\ cond op = false).
Proof.
  intros cond n l r G. cbv zeta. destruct (child_wrapped cond n) eqn:W.
  - split; [apply G|]. split; intros o [].
  - destruct (G l r) as (C & L & R). split; [exact C|]. split.
    + intros o Ho. destruct (L o Ho) as ((Rg & op & cs & t & -> & Le) & Pl). split; [exact Rg|]. split; [exact Pl|]. exists op, cs, t. auto.
    + intros o Ho. destruct (R o Ho) as (Rg & op & cs & t & -> & Le). split; [exact Rg|]. exists op, cs, t. auto.
Qed.
Lemma wrap_good : forall b s (X Y : operator -> Prop), correct s ->
  (forall o, In o (left_edge s) -> X o) -> (forall o, In o (right_edge s) -> Y o) ->
  correct (swrap b s) /\ (forall o, In o (left_edge (swrap b s)) -> X o) /\ (forall o, In o (right_edge (swrap b s)) -> Y o).
Proof. intros [] s X Y C HX HY; [|auto]. split; [exact C|]. split; intros o []. Qed.

Lemma pexpr_good : forall n, printable n -> good n.
Proof.
  intros n. induction n as [v t|x i t|op cs t IH] using node_ind'; intros H.
  - intros l r. split; [exact Logic.I|]. split; intros o [].
  - intros l r. split; [exact Logic.I|]. split; intros o [].
  - assert (A : Forall good cs).
    { rewrite Forall_forall in *. intros y Hy. apply IH; auto. pose proof (printable_all _ _ _ H) as Q. rewrite Forall_forall in Q. auto. }
    clear IH. destruct (printable_op _ _ _ H) as (R & Ar). pose proof (place_made op R) as M.
    intros l r. unfold made in M. destruct (o_place op) eqn:Ep.
    + rewrite M in Ar. destruct cs as [|c0 [|]]; try (destruct Ar as [Ar|Ar]; discriminate Ar). inversion A as [|? ? A0 _]; subst.
      destruct (right_child (pre_cond op) c0 true (negb l && r) A0) as (C & Le & Re). cbn [pexpr]. rewrite Ep. apply wrap_good.
      * cbn [correct]. split; [exact C|]. intros o Ho. destruct (Le o Ho) as (_ & _ & op' & cs' & t' & -> & B1 & B2).
        unfold pre_cond in B2. apply Nat.leb_gt in B2. unfold goes_left. lia.
      * intros o [].
      * cbn [right_edge]. intros o [<-|Ho]. { split; [exact R|]. exists op, [c0], t. auto. }
        destruct (Re o Ho) as (Rg & op' & cs' & t' & -> & B1 & B2). split; [exact Rg|]. exists op, [NOp op' cs' t'], t. split; [reflexivity|].
        unfold pre_cond in B2. apply Nat.leb_gt in B2. lia.
    + destruct M as (M & _). rewrite M in Ar. destruct cs as [|c0 [|c1 [|]]]; try (destruct Ar as [Ar|Ar]; discriminate Ar).
      inversion A as [|? ? A0 A']; subst. inversion A' as [|? ? A1 _]; subst.
      destruct (right_child (left_cond op) c0 l true A0) as (C0 & Le0 & Re0).
      destruct (right_child (right_cond op) c1 true r A1) as (C1 & Le1 & Re1).
      cbn [pexpr]. rewrite Ep.
      assert (LC : forall o, left_cond op o = false -> o_prec op < o_prec o \/ (o_prec op = o_prec o /\ o_assoc op = ALeft)).
      { intros o E. unfold left_cond in E. apply orb_false_iff in E. destruct E as [E1 E2]. apply Nat.ltb_ge in E1.
        apply andb_false_iff in E2. destruct E2 as [E2|E2]. { apply Nat.eqb_neq in E2. lia. }
        destruct (o_assoc op); [discriminate E2|]. assert (o_prec op < o_prec o \/ o_prec op = o_prec o) as [|] by lia; auto. }
      assert (RC : forall o, right_cond op o = false -> o_prec op < o_prec o \/ (o_prec op = o_prec o /\ o_assoc op = ARight)).
      { intros o E. unfold right_cond in E. apply orb_false_iff in E. destruct E as [E1 E2]. apply Nat.ltb_ge in E1.
        apply andb_false_iff in E2. destruct E2 as [E2|E2]. { apply Nat.eqb_neq in E2. lia. }
        destruct (o_assoc op); [|discriminate E2]. assert (o_prec op < o_prec o \/ o_prec op = o_prec o) as [|] by lia; auto. }
      split; [|split].
      * cbn [correct]. split; [exact C0|]. split; [exact C1|]. split.
        -- intros o Ho. destruct (Re0 o Ho) as (_ & op' & cs' & t' & -> & B1 & B2). apply LC in B2. unfold goes_left.
           destruct B2 as [B2|[B2 B3]]; [lia|]. assert (o_prec op < o_prec o \/ o_prec op = o_prec o) as [|] by lia; auto.
        -- intros o Ho. destruct (Le1 o Ho) as (Rg & Pl & op' & cs' & t' & -> & B1 & B2). apply RC in B2. unfold goes_left.
           intros [G|[G1 G2]]; [lia|]. destruct B2 as [B2|[B2 B3]]; [lia|].
           destruct Pl as [Pl|Pl].
           ++ pose proof (set_up_consistent c S op o R Rg Ep Pl (eq_sym G1)) as Q. congruence.
           ++ destruct P as (_ & _ & _ & _ & Pt). apply (Pt op o R Rg Ep Pl B3). auto.
      * cbn [left_edge]. intros o [<-|Ho]. { split; [|left; exact Ep]. split; [exact R|]. exists op, [c0; c1], t. auto. }
        destruct (Le0 o Ho) as (Rg & Pl & op' & cs' & t' & -> & B1 & B2). apply LC in B2. split; [|exact Pl]. split; [exact Rg|].
        exists op, [NOp op' cs' t'; c1], t. split; [reflexivity|]. lia.
      * cbn [right_edge]. intros o [<-|Ho]. { split; [exact R|]. exists op, [c0; c1], t. auto. }
        destruct (Re1 o Ho) as (Rg & op' & cs' & t' & -> & B1 & B2). apply RC in B2. split; [exact Rg|].
        exists op, [c0; NOp op' cs' t'], t. split; [reflexivity|]. lia.
    + destruct M as (M & _ & As). rewrite M in Ar. destruct cs as [|c0 [|]]; try (destruct Ar as [Ar|Ar]; discriminate Ar). inversion A as [|? ? A0 _]; subst.
      destruct (right_child (post_cond op) c0 (l && negb r) true A0) as (C & Le & Re). cbn [pexpr]. rewrite Ep. apply wrap_good.
      * cbn [correct]. split; [exact C|]. intros o Ho. destruct (Re o Ho) as (_ & op' & cs' & t' & -> & B1 & B2).
        unfold post_cond in B2. apply Nat.ltb_ge in B2. unfold goes_left.
        assert (o_prec op < o_prec o \/ o_prec op = o_prec o) as [|] by lia; auto.
      * cbn [left_edge]. intros o [<-|Ho]. { split; [|right; exact Ep]. split; [exact R|]. exists op, [c0], t. auto. }
        destruct (Le o Ho) as (Rg & Pl & op' & cs' & t' & -> & B1 & B2). split; [|exact Pl]. split; [exact Rg|].
        exists op, [NOp op' cs' t'], t. split; [reflexivity|]. unfold post_cond in B2. apply Nat.ltb_ge in B2. lia.
      * intros o [].
    + destruct (arity_zero (o_arity op)) eqn:Z.
      { cbn [pexpr]. rewrite Ep, Z. split; [exact Logic.I|]. split; intros o []. }
      destruct cs as [|c0 cs]. { cbn [pexpr]. rewrite Ep, Z. split; [exact Logic.I|]. split; intros o []. }
      rewrite pexpr_fun by assumption. split; [|split; intros o []]. cbn [correct].
      clear Ar H. revert c0 A. induction cs as [|c1 cs IH]; intros c0 A; inversion A as [|? ? A0 A']; subst.
      * apply A0.
      * cbn [pargs]. split; [apply A0|]. apply IH. exact A'.
Qed.

(** *** the tree *)
Lemma swrap_erase : forall b s, erase (swrap b s) = erase s.
Proof. intros [] s; reflexivity. Qed.
Lemma child_erase : forall cond n l r, (forall l r, bare_tree (erase (pexpr n l r)) = bare_tree n) ->
  bare_tree (erase (if child_wrapped cond n then sparen (pexpr n false false) else pexpr n l r)) = bare_tree n.
Proof. intros cond n l r H. destruct (child_wrapped cond n); apply H. Qed.
Lemma pexpr_tree : forall n, printable n -> forall l r, bare_tree (erase (pexpr n l r)) = bare_tree n.
Proof.
  intros n. induction n as [v t|x i t|op cs t IH] using node_ind'; intros H l r; [reflexivity|reflexivity|].
  assert (A : Forall (fun n => forall l r, bare_tree (erase (pexpr n l r)) = bare_tree n) cs).
  { rewrite Forall_forall in *. intros y Hy. apply IH; auto. pose proof (printable_all _ _ _ H) as Q. rewrite Forall_forall in Q. auto. }
  clear IH. destruct (printable_op _ _ _ H) as (R & Ar). pose proof (place_made op R) as M.
  unfold made in M. destruct (o_place op) eqn:Ep.
  + rewrite M in Ar. destruct cs as [|c0 [|]]; try (destruct Ar as [Ar|Ar]; discriminate Ar). inversion A as [|? ? A0 _]; subst.
    cbn [pexpr]. rewrite Ep, swrap_erase. cbn [erase bare_tree map]. rewrite child_erase by exact A0. reflexivity.
  + destruct M as (M & _). rewrite M in Ar. destruct cs as [|c0 [|c1 [|]]]; try (destruct Ar as [Ar|Ar]; discriminate Ar).
    inversion A as [|? ? A0 A']; subst. inversion A' as [|? ? A1 _]; subst.
    cbn [pexpr]. rewrite Ep. cbn [erase bare_tree map]. rewrite !child_erase by assumption. reflexivity.
  + destruct M as (M & _). rewrite M in Ar. destruct cs as [|c0 [|]]; try (destruct Ar as [Ar|Ar]; discriminate Ar). inversion A as [|? ? A0 _]; subst.
    cbn [pexpr]. rewrite Ep, swrap_erase. cbn [erase bare_tree map]. rewrite child_erase by exact A0. reflexivity.
  + destruct (arity_zero (o_arity op)) eqn:Z.
    { cbn [pexpr]. rewrite Ep, Z. destruct (o_arity op) as [[|]|]; try discriminate Z.
      destruct Ar as [Ar|Ar]; [discriminate Ar|]. destruct cs; [reflexivity|discriminate Ar]. }
    destruct cs as [|c0 cs]. { cbn [pexpr]. rewrite Ep, Z. reflexivity. }
    rewrite pexpr_fun by assumption. cbn [erase bare_tree]. f_equal.
    clear Ar H. revert c0 A. induction cs as [|c1 cs IH]; intros c0 A; inversion A as [|? ? A0 A']; subst.
    * cbn [pargs erase_args map]. rewrite A0. reflexivity.
    * cbn [pargs erase_args]. rewrite map_cons, A0, (IH c1 A'). reflexivity.
Qed.
Lemma unplaced_bare : forall n, bare_tree (unplaced n) = bare_tree n.
Proof.
  induction n as [v t|x i t|op cs t IH] using node_ind'; [reflexivity|reflexivity|].
  cbn [unplaced bare_tree]. f_equal. rewrite map_map. apply map_ext_in. rewrite Forall_forall in IH. exact IH.
Qed.

(** *** parsing the pieces *)
Lemma alike_solid : forall ps i, Forall2 alike (filter (fun t => negb (blank t)) (indexed i ps)) (solid ps).
Proof.
  induction ps as [|x ps IH]; intros i; [constructor|]. unfold indexed, solid. cbn [List.length List.seq combine map filter].
  change (blank (i, x)) with (blank (tkn x)). specialize (IH (Datatypes.S i)). unfold indexed, solid in IH.
  destruct (blank (tkn x)); cbn [negb]; [exact IH|]. constructor; [left; reflexivity|exact IH].
Qed.
Lemma pieces_parse : forall n, printable n -> exists ps t', tree_pieces fmt false n = Ok ps
  /\ parse_tokens strtod (view c) ps = Ok (PTree t') /\ bare_tree t' = bare_tree n.
Proof.
  intros n H. destruct (prints_all n H false false) as (ps & E & F).
  pose proof (parse_correct strtod (view c) (set_up_usual c S) (pexpr n false false) 0
                (pexpr_wf n H false false) (proj1 (pexpr_good n H false false))) as K.
  destruct P as (NB & _).
  pose proof (conclude_r (run strtod (view c) init_pstate (unblanked ps)) (run strtod (view c) init_pstate (flatten (pexpr n false false)))
     (List.length ps) 0) as Q.
  rewrite K, <- parse_unblanked in Q.
  assert (X : lift same_outcome (parse_tokens strtod (view c) ps) (Ok (PTree (erase (pexpr n false false))))).
  { apply Q. apply run_r; [apply (names_no_paren c NB)| |].
    - rewrite <- F. apply alike_solid.
    - repeat split; constructor. }
  destruct (parse_tokens strtod (view c) ps) as [o| |] eqn:Eo; cbn [lift] in X; try contradiction.
  destruct o as [t'|e k|]; cbn [same_outcome] in X; try contradiction.
  exists ps, t'. split; [exact E|]. split; [first [exact Eo|reflexivity]|].
  rewrite <- unplaced_bare, X, unplaced_bare. apply pexpr_tree. exact H.
Qed.
End Print.
