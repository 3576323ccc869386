(** Positions: simplification keeps the property "the position of every operator and constant satisfies P". *)
From Coq Require Import List Ascii String NArith ZArith Bool Lia Arith.
From Coq.Floats Require Import SpecFloat.
From Verif Require Import M_Base M_StringUtil M_Tree M_Context M_TreeUtil M_Match M_Double M_Eval M_Simplify S_Engine S_Tree L_Tree S_Match L_Match L_MatchRule S_Session L_Expand.
From Verif Require L_OpsKept.
Import ListNotations.
Open Scope list_scope.
Open Scope nat_scope.
Open Scope res_scope.

Definition is_var (n : node) : bool := match n with NVar _ _ _ => true | _ => false end.
(** The position of every node but the variables *)
Fixpoint placed (P : nat -> Prop) (n : node) : Prop :=
  match n with
  | NConst _ k => P k
  | NVar _ _ _ => True
  | NOp _ cs k => P k /\ (fix go (l : list node) : Prop := match l with [] => True | c :: l' => placed P c /\ go l' end) cs
  end.
Section Kept.
Variable P : nat -> Prop.
Definition G : node -> Prop := placed P.
Lemma G_op : forall op cs k, G (NOp op cs k) <-> P k /\ Forall G cs.
Proof.
  intros op cs k. unfold G. cbn [placed]. apply and_iff_compat_l. induction cs as [|c cs IH]; split; intros H; auto.
  - destruct H. constructor; auto. apply IH; auto.
  - inversion H; subst. split; auto. apply IH; auto.
Qed.
Lemma G_tok : forall n, G n -> is_var n = false -> P (get_token_index n).
Proof. intros [v k|x i k|op cs k] H V; try discriminate V; auto. apply G_op in H. apply H. Qed.
Lemma vget_In : forall A (l : list A) i x, vget l i = Ok x -> In x l.
Proof. intros A l i x E. unfold vget in E. destruct (nth_error l i) eqn:H; [|discriminate E]. injection E as <-. eapply nth_error_In; eauto. Qed.
Lemma G_replace : forall q t n, G t -> G n -> G (replace_at t q n).
Proof.
  induction q as [|i q IH]; intros t n A B; simpl; auto. destruct t as [v k|x j k|op cs k]; auto. destruct (nth_error cs i) as [c|] eqn:E; auto.
  apply G_op in A. destruct A as [A1 A2]. apply G_op. split; auto. apply vset_Forall; auto. apply IH; auto. rewrite Forall_forall in A2. apply A2. eapply nth_error_In; eauto.
Qed.
Lemma G_deref : forall q t n, G t -> deref t q = Ok n -> G n.
Proof.
  induction q as [|i q IH]; intros t n A E. { injection E as <-. auto. }
  destruct t as [| |op cs j]; try discriminate E. cbn [deref] in E. destruct (vget cs i) as [c| |] eqn:V; cbn [rbind] in E; try discriminate E.
  apply vget_In in V. apply G_op in A. destruct A as [_ A]. rewrite Forall_forall in A. eauto.
Qed.
(** The pointer points at an operator or a constant. *)
Definition pinned (t : node) (p : path) : Prop := exists n, deref t p = Ok n /\ is_var n = false.
Lemma pinned_P : forall t p, G t -> pinned t p -> exists n, deref t p = Ok n /\ P (get_token_index n).
Proof. intros t p A (n & D & V). exists n. split; auto. apply G_tok; auto. eapply G_deref; eauto. Qed.
Lemma pinned_down : forall op cs k i c p, nth_error cs i = Some c -> pinned c p -> pinned (NOp op cs k) (i :: p).
Proof. intros op cs k i c p E (n & D & V). exists n. split; auto. cbn [deref]. unfold vget. rewrite E. cbn [rbind]. exact D. Qed.

(** ** Matchings *)
Definition mgood (m : matching) : Prop := Forall (fun o => match o with Some l => Forall G (nl_nodes l) | None => True end) m.
Definition egood (ext : matching -> nodelist -> res (list matching)) : Prop :=
  forall m tl ms, mgood m -> Forall G (nl_nodes tl) -> ext m tl = Ok ms -> Forall mgood ms.
Lemma fill_good : forall ext k i first loc out, (forall m ms, mgood m -> ext m = Ok ms -> Forall mgood ms) -> Forall mgood loc ->
  fill_loop ext k i first loc = Ok out -> Forall mgood out.
Proof.
  induction k as [|k IH]; intros i first loc out E L H; cbn [fill_loop] in H. { injection H as <-. auto. }
  destruct (vget loc (first + i)) as [m| |] eqn:V; cbn [rbind] in H; try discriminate H.
  destruct (ext m) as [new| |] eqn:X; cbn [rbind] in H; try discriminate H.
  apply IH in H; auto. apply Forall_app. split; auto. eapply E; eauto. apply vget_In in V. rewrite Forall_forall in L. auto.
Qed.
Section Lists.
Variable exts : list (matching -> nodelist -> res (list matching)).
Variables pcs tcs : list node.
Hypothesis EG : Forall egood exts.
Hypothesis TG : Forall G tcs.
Lemma suffix_good : forall fuel i sfx loc sfx' loc', Forall mgood loc -> fill_suffix exts tcs fuel i sfx loc = Ok (sfx', loc') -> Forall mgood loc'.
Proof.
  induction fuel as [|f IH]; intros i sfx loc sfx' loc' L H; cbn [fill_suffix] in H;
    destruct (vget sfx i) as [c| |]; cbn [rbind] in H; try discriminate H; destruct (sn_first c); try discriminate H; try (injection H as <- <-; auto; fail).
  destruct (fill_suffix exts tcs f (sn_parent c) sfx loc) as [[sfx1 loc1]| |] eqn:F; cbn [rbind] in H; try discriminate H.
  destruct (vget sfx1 (sn_parent c)) as [par| |]; cbn [rbind] in H; try discriminate H. destruct (sn_first par) as [pf|]; try discriminate H.
  destruct (vget exts (sn_dist c - 1)) as [ext| |] eqn:V; cbn [rbind] in H; try discriminate H.
  match type of H with rbind ?x _ = _ => destruct x as [loc2| |] eqn:F2 end; cbn [rbind] in H; try discriminate H. injection H as <- <-.
  eapply fill_good; [|eapply IH; eauto|exact F2]. intros m ms M. apply vget_In in V. rewrite Forall_forall in EG. apply (EG _ V); auto.
  cbn [nl_nodes]. clear - TG. generalize (N.to_nat (sn_sum c)). intros k. rewrite Forall_forall in *. intros x I. apply TG. rewrite <- (firstn_skipn k tcs). apply in_or_app. auto.
Qed.
Lemma mpl_good : forall fuel m i sfx loc out ms, Forall mgood loc -> Forall mgood out -> mpl_loop exts pcs tcs fuel m i sfx loc out = Ok ms -> Forall mgood ms.
Proof.
  induction fuel as [|f IH]; intros m i sfx loc out ms L O H; cbn [mpl_loop] in H; destruct (nth_error sfx i) as [curr|]; try discriminate H; try (injection H as <-; auto; fail).
  match type of H with rbind ?x _ = _ => destruct x as [[[sfx1 loc1] out1]| |] eqn:E end; cbn [rbind] in H; try discriminate H.
  assert (K : Forall mgood loc1 /\ Forall mgood out1).
  { destruct (_ && _) in E.
    - destruct (fill_suffix exts tcs (S i) i sfx loc) as [[sfx' loc']| |] eqn:F; cbn [rbind] in E; try discriminate E.
      destruct (vget sfx' i) as [c'| |]; cbn [rbind] in E; try discriminate E. destruct (sn_first c') as [a|]; try discriminate E. injection E as <- <- <-.
      pose proof (suffix_good _ _ _ _ _ _ L F) as L'. split; auto. apply Forall_app. split; auto.
      rewrite Forall_forall in *. intros x I. apply L'. rewrite <- (firstn_skipn a loc'). apply in_or_app. auto.
    - injection E as <- <- <-. auto. }
  destruct K as [K1 K2]. destruct (nth_error pcs (sn_dist curr)) as [p|]; [|eapply IH; [| |exact H]; auto].
  destruct (next_labels m p _ _ _) as [ls| |]; cbn [rbind] in H; try discriminate H. eapply IH; [| |exact H]; auto.
Qed.
End Lists.
Lemma set_good : forall m id l, mgood m -> Forall G (nl_nodes l) -> mgood (set_mapped m id l).
Proof. induction m as [|o m IH]; intros [|id] l M L; simpl; auto; inversion M; subst; constructor; auto. apply IH; auto. Qed.
Lemma extend_good : forall ck pat p, egood (extend_matching ck pat p).
Proof.
  intros ck pat. induction p as [v k|x i k|op cs k IH] using node_ind'; intros m tl ms M T E; cbn [extend_matching] in E.
  - destruct (_ =? _)%N; [|injection E as <-; constructor]. destruct (vget (nl_nodes tl) 0) as [t| |]; cbn [rbind] in E; try discriminate E.
    destruct (tree_equals _ t); injection E as <-; repeat constructor; auto.
  - destruct (mapped m i) as [[l|]| |]; cbn [rbind] in E; try discriminate E.
    + destruct (nodelists_equal l tl) as [[|]| |]; cbn [rbind] in E; try discriminate E; injection E as <-; repeat constructor; auto.
    + destruct (check_constraints _ _ _) as [[|]| |]; cbn [rbind] in E; try discriminate E; injection E as <-; repeat constructor; auto. apply set_good; auto.
  - destruct (_ =? _)%N; [|injection E as <-; constructor]. destruct (vget (nl_nodes tl) 0) as [t| |] eqn:V; cbn [rbind] in E; try discriminate E.
    destruct t as [| |op' cs' k']; try (injection E as <-; constructor). destruct (o_id op =? o_id op'); [|injection E as <-; constructor].
    apply vget_In in V. rewrite Forall_forall in T. apply T, G_op in V. destruct V as [_ V].
    unfold match_parameter_lists in E. eapply mpl_good; [| | | |exact E]; auto. rewrite Forall_forall in *. intros e I. apply in_map_iff in I. destruct I as (c & <- & I). apply IH. auto.
Qed.
Lemma get_good : forall ck pat t m, G t -> get_matching ck pat t = Ok (Some m) -> mgood m.
Proof.
  intros ck pat t m Gt E. unfold get_matching, get_all_matchings in E. destruct (extend_matching ck pat (pt_tree pat) empty_matching (mkNL 1 [t])) as [ms| |] eqn:X; cbn [rbind] in E; try discriminate E.
  apply (extend_good ck pat) in X; [|unfold mgood, empty_matching; generalize MAX_MAPPED_VARS; induction n; simpl; constructor; auto|cbn [nl_nodes]; auto].
  destruct ms; [discriminate E|]. injection E as <-. inversion X; auto.
Qed.
Lemma find_good : forall ck pat t q m, G t -> find_matching ck pat t = Ok (Some (q, m)) -> mgood m.
Proof.
  intros ck pat. assert (R : forall t q m, G t -> (r <- get_matching ck pat t ;; match r with Some m => Ok (Some ([], m)) | None => Ok None end) = Ok (Some (q : path, m)) -> mgood m).
  { intros t q m Gt E. destruct (get_matching ck pat t) as [[m'|]| |] eqn:X; cbn [rbind] in E; try discriminate E. injection E as _ <-. eapply get_good; eauto. }
  induction t as [v k|x i k|op cs k IH] using node_ind'; intros q m Gt E; cbn [find_matching] in E; try (eapply R; eauto; fail).
  destruct (get_matching ck pat (NOp op cs k)) as [[m'|]| |] eqn:X; cbn [rbind] in E; try discriminate E. { injection E as _ <-. eapply get_good; eauto. }
  apply G_op in Gt. destruct Gt as [_ Gt]. revert q E. generalize 0. clear X. induction cs as [|c cs IHc]; intros i q E. { discriminate E. }
  inversion IH; subst. inversion Gt; subst. destruct (find_matching ck pat c) as [[[p m']|]| |] eqn:Fc; cbn [rbind] in E; try discriminate E.
  - injection E as _ <-. eapply H1; eauto.
  - eapply IHc; eauto.
Qed.

(** ** Trees built *)
Lemma mapped_good : forall m id l, mgood m -> mapped m id = Ok (Some l) -> Forall G (nl_nodes l).
Proof.
  intros m id l M E. unfold mapped in E. destruct (nth_error m id) eqn:N; [|discriminate E]. injection E as ->. apply nth_error_In in N. unfold mgood in M. rewrite Forall_forall in M. apply (M _ N).
Qed.
Lemma mapped_list_good : forall m id l, mgood m -> mapped_list m id = Ok l -> Forall G l.
Proof.
  intros m id l M E. unfold mapped_list in E. destruct (mapped m id) as [[nl|]| |] eqn:X; cbn [rbind] in E; try discriminate E; [|injection E as <-; constructor].
  apply mapped_good in X; auto. unfold nl_read in E. destruct (_ <=? _)%N; [|discriminate E]. injection E as <-. clear - X.
  generalize dependent (nl_nodes nl). intros l X. rewrite Forall_forall in *. intros x I. apply X. rewrite <- (firstn_skipn (N.to_nat (nl_size nl)) l). apply in_or_app. auto.
Qed.
Lemma copy_good : forall l, Forall G l -> Forall G (map tree_copy l).
Proof. intros l F. rewrite Forall_forall in *. intros x I. apply in_map_iff in I. destruct I as (y & <- & I). rewrite tree_copy_id. auto. Qed.
Lemma child_good : forall m n l, mgood m -> G n -> transform_child m n = Ok l -> Forall G l.
Proof.
  intros m. induction n as [v k|x i k|op cs k IH] using node_ind'; intros l M Gn E; cbn [transform_child] in E.
  - injection E as <-. auto.
  - destruct (mapped_list m i) as [l'| |] eqn:X; cbn [rbind] in E; try discriminate E. injection E as <-. apply copy_good. eapply mapped_list_good; eauto.
  - apply G_op in Gn; destruct Gn as [Qo Gc].
    match type of E with rbind ?x _ = _ => destruct x as [cs'| |] eqn:X end; cbn [rbind] in E; try discriminate E. injection E as <-.
    constructor; auto. apply G_op. split; auto. revert cs' X. induction cs as [|c cs IHc]; intros cs' X. { injection X as <-. constructor. }
    inversion IH; subst. inversion Gc; subst. destruct (transform_child m c) as [a| |] eqn:Ec; cbn [rbind] in X; try discriminate X.
    match type of X with rbind ?x _ = _ => destruct x as [b| |] eqn:Eb end; cbn [rbind] in X; try discriminate X. injection X as <-. apply Forall_app. split; eauto.
Qed.
Lemma build_good : forall m n t, mgood m -> G n -> transform_by_matching m n = Ok t -> G t.
Proof.
  intros m [v k|x i k|op cs k] t M Gn E; cbn [transform_by_matching] in E.
  - injection E as <-. auto.
  - destruct (mapped m i) as [[nl|]| |] eqn:X; cbn [rbind] in E; try discriminate E. destruct (_ =? _)%N; [|discriminate E].
    apply mapped_good in X; auto. destruct (nl_nodes nl); [discriminate E|]. injection E as <-. rewrite tree_copy_id. inversion X; auto.
  - apply G_op in Gn; destruct Gn as [Qo Gc]. destruct (transform_matched_recursive m cs) as [cs'| |] eqn:X; cbn [rbind] in E; try discriminate E. injection E as <-.
    apply G_op. split; auto. revert cs' X. induction cs as [|c cs IHc]; intros cs' X; cbn [transform_matched_recursive] in X. { injection X as <-. constructor. }
    inversion Gc; subst. destruct (transform_child m c) as [a| |] eqn:Ec; cbn [rbind] in X; try discriminate X.
    destruct (transform_matched_recursive m cs) as [b| |] eqn:Eb; cbn [rbind] in X; try discriminate X. injection X as <-. apply Forall_app. split; auto. eapply child_good; eauto.
Qed.

(** ** Where a pattern matches *)
Lemma get_root : forall ck pat t m, is_var (pt_tree pat) = false -> get_matching ck pat t = Ok (Some m) -> is_var t = false.
Proof.
  intros ck pat t m V E. destruct t as [| x i k|]; auto. exfalso. unfold get_matching, get_all_matchings in E.
  destruct (pt_tree pat) as [v j|y j l|op cs j]; [|discriminate V|]; cbn [extend_matching nl_size nl_nodes N.eqb vget nth_error rbind] in E;
    cbn in E; discriminate E.
Qed.
Lemma find_root : forall ck pat t q m, is_var (pt_tree pat) = false -> find_matching ck pat t = Ok (Some (q, m)) -> pinned t q.
Proof.
  intros ck pat t q m V. revert q m.
  assert (R : forall t q m, (r <- get_matching ck pat t ;; match r with Some m => Ok (Some ([], m)) | None => Ok None end) = Ok (Some (q : path, m)) -> pinned t q).
  { intros t0 q m E. destruct (get_matching ck pat t0) as [[m'|]| |] eqn:X; cbn [rbind] in E; try discriminate E. injection E as <- _. exists t0. split; [reflexivity|]. eapply get_root; eauto. }
  induction t as [v k|x i k|op cs k IH] using node_ind'; intros q m E; cbn [find_matching] in E; try (eapply R; exact E).
  destruct (get_matching ck pat (NOp op cs k)) as [[m'|]| |] eqn:X; cbn [rbind] in E; try discriminate E. { injection E as <- _. exists (NOp op cs k). auto. }
  assert (K : forall l i, (forall j c, nth_error l j = Some c -> nth_error cs (i + j) = Some c) -> Forall (fun c => forall q m, find_matching ck pat c = Ok (Some (q, m)) -> pinned c q) l ->
    (fix go (l : list node) (i : nat) : res (option (path * matching)) :=
         match l with
         | [] => Ok None
         | c :: l' =>
           r <- find_matching ck pat c ;;
           match r with
           | Some (p, m) => Ok (Some (i :: p, m))
           | None => go l' (S i)
           end
         end) l i = Ok (Some (q, m)) -> pinned (NOp op cs k) q).
  { clear E IH. induction l as [|c l IHl]; intros i N F E. { discriminate E. } inversion F; subst.
    destruct (find_matching ck pat c) as [[[p m']|]| |] eqn:Fc; cbn [rbind] in E; try discriminate E.
    - injection E as <- _. eapply pinned_down; [|eapply H1; reflexivity]. rewrite <- (Nat.add_0_r i). apply N. reflexivity.
    - eapply IHl; [|auto|exact E]. intros j d Ej. rewrite Nat.add_succ_l, <- Nat.add_succ_r. apply N. exact Ej. }
  apply (K cs 0); auto.
Qed.

(** ** Rules *)
Lemma located_good : forall k n, P k -> G (located k n).
Proof.
  intros k n Pk. induction n as [v j|x i j|op cs j IH] using node_ind'; try exact Logic.I; cbn [located]; auto.
  apply G_op. split; auto. rewrite Forall_forall in *. intros c I. apply in_map_iff in I. destruct I as (c' & <- & I). auto.
Qed.
(** The pattern is not a single variable. *)
Definition headed (r : rule) : Prop := is_var (pt_tree (r_pat r)) = false.
Lemma rule_good : forall ck t r t', G t -> headed r -> apply_rule ck t r = Ok (Some t') -> G t'.
Proof.
  intros ck t r t' Gt Hr E. unfold apply_rule in E. destruct (find_matching ck (r_pat r) t) as [[[q m]|]| |] eqn:F; cbn [rbind] in E; try discriminate E.
  destruct (deref t q) as [sub| |] eqn:D; cbn [rbind] in E; try discriminate E.
  match type of E with rbind ?x _ = _ => destruct x as [new| |] eqn:X end; cbn [rbind] in E; try discriminate E. injection E as <-.
  apply G_replace; auto. eapply build_good; [|  |exact X]. { exact (find_good _ _ _ _ _ Gt F). } rewrite tree_copy_id, set_tok_located. apply located_good.
  destruct (pinned_P t q Gt (find_root _ _ _ _ _ Hr F)) as (n & D' & Pn). congruence.
Qed.
Lemma first_good : forall ck rs t t', G t -> Forall headed rs -> apply_first ck t rs = Ok (Some t') -> G t'.
Proof.
  intros ck rs t t' Gt. induction rs as [|r rs IH]; intros F E; cbn [apply_first] in E. { discriminate E. } inversion F; subst.
  destruct (apply_rule ck t r) as [[u|]| |] eqn:A; cbn [rbind] in E; try discriminate E; [|auto]. injection E as <-. eapply rule_good; [exact Gt| |exact A]; auto.
Qed.
Lemma ruleset_good : forall fuel ck rs cap t c t' k, G t -> Forall headed rs ->
  apply_ruleset_loop fuel ck rs cap t c = Ok (Some (t', k)) -> G t'.
Proof.
  induction fuel as [|f IH]; intros ck rs cap t c t' k Gt F E; cbn [apply_ruleset_loop] in E. { discriminate E. }
  destruct (apply_first ck t rs) as [[u|]| |] eqn:A; cbn [rbind] in E; try discriminate E.
  - pose proof (first_good _ _ _ _ Gt F A) as Gu. destruct (S c =? cap); [injection E as <- _; auto|eapply IH; [exact Gu|exact F|exact E]].
  - injection E as <- _. auto.
Qed.

(** ** Reduction *)
Lemma no_var_child : forall op cs k c, count_all_variable_nodes (NOp op cs k) = 0 -> In c cs -> count_all_variable_nodes c = 0.
Proof.
  intros op cs k c E I. apply Nat.eqb_eq, count_zero in E. apply Nat.eqb_eq, count_zero. cbn [var_names] in E.
  induction cs as [|d cs IH]; [destruct I|]. simpl in E. apply app_eq_nil in E. destruct E. destruct I as [<-|I]; auto.
Qed.
Lemma reduce_fails_at : forall S (lis : @listener S) t s s' e p, count_all_variable_nodes t = 0 -> tree_reduce lis s t = (s', RFail e p) -> pinned t p.
Proof.
  intros S lis. induction t as [v k|x i k|op cs k IH] using node_ind'; intros s s' e p Zv E; cbn [tree_reduce] in E; try discriminate E; try discriminate Zv.
  assert (K : forall l i s0 args s1 e p, (forall j c, nth_error l j = Some c -> nth_error cs (i + j) = Some c) ->
    Forall (fun c => forall s s' e p, count_all_variable_nodes c = 0 -> tree_reduce lis s c = (s', RFail e p) -> pinned c p) l ->
    (fix go (l : list node) (i : nat) (s : S) (args : list double) : S * (list double + Z * path) :=
         match l with
         | [] => (s, inl args)
         | c :: l' =>
           let '(s', r) := tree_reduce lis s c in
           match r with
           | RVal v => go l' (Datatypes.S i) s' (args ++ [v])
           | RFail e p => (s', inr (e, i :: p))
           end
         end) l i s0 args = (s1, inr (e, p)) -> pinned (NOp op cs k) p).
  { clear E IH. induction l as [|c l IHl]; intros i s0 args s1 e0 p0 N F E. { discriminate E. } inversion F; subst.
    assert (Nc : nth_error cs i = Some c) by (rewrite <- (Nat.add_0_r i); apply N; reflexivity).
    destruct (tree_reduce lis s0 c) as [s2 [v|e1 p1]] eqn:R.
    - eapply IHl; [|auto|exact E]. intros j d Ej. rewrite Nat.add_succ_l, <- Nat.add_succ_r. apply N. exact Ej.
    - injection E as _ _ <-. eapply pinned_down; [exact Nc|]. eapply H1; [|exact R]. eapply no_var_child; [exact Zv|]. eapply nth_error_In; exact Nc. }
  match type of E with (let '(_, _) := ?x in _) = _ => destruct x as [s1 [args|[e1 p1]]] eqn:X end.
  - destruct (lis s1 op args) as [s2 [e2 v]]. destruct (e2 =? 0)%Z; [discriminate E|]. injection E as _ _ <-. exists (NOp op cs k). auto.
  - injection E as _ _ <-. eapply (K cs 0); [|exact IH|exact X]. auto.
Qed.
Lemma no_var : forall n, count_all_variable_nodes n = 0 -> is_var n = false.
Proof. intros [| |] E; auto. discriminate E. Qed.
Lemma reduce_good : forall S (lis : @listener S) t s s' t' e, G t -> tree_reduce_constant_subtrees lis s t = (s', (t', e)) ->
  G t' /\ (forall z p, e = Some (z, p) -> pinned t' p).
Proof.
  intros S lis. induction t as [v k|x i k|op cs k IH] using node_ind'; intros s s' t' e Gt E.
  - cbn [tree_reduce_constant_subtrees count_all_variable_nodes Nat.eqb tree_reduce] in E. injection E as _ <- <-. split; auto. discriminate.
  - cbn [tree_reduce_constant_subtrees count_all_variable_nodes Nat.eqb] in E. injection E as _ <- <-. split; auto. discriminate.
  - cbn [tree_reduce_constant_subtrees] in E. destruct (count_all_variable_nodes (NOp op cs k) =? 0) eqn:Zv.
    + apply Nat.eqb_eq in Zv. destruct (tree_reduce lis s (NOp op cs k)) as [s1 [v1|z p]] eqn:R; injection E as _ <- <-.
      * split; [|discriminate]. apply (G_tok (NOp op cs k)); auto.
      * split; auto. intros z' p' H. injection H as <- <-. eapply reduce_fails_at; eauto.
    + match type of E with (let '(_, _) := ?x in _) = _ => destruct x as [s1 [cs' err]] eqn:X end. injection E as _ <- <-.
      apply G_op in Gt. destruct Gt as [Pk Gc].
      assert (K : forall l i s0 s1 l' err, Forall G l -> Forall (fun c => forall s s' t' e, G c -> tree_reduce_constant_subtrees lis s c = (s', (t', e)) -> G t' /\ (forall z p, e = Some (z, p) -> pinned t' p)) l ->
        (fix go (l : list node) (i : nat) (s : S) : S * (list node * option (Z * path)) :=
           match l with
           | [] => (s, ([], None))
           | c :: l' =>
             match tree_reduce_constant_subtrees lis s c with
             | (s', (c', Some (e, p))) => (s', (c' :: l', Some (e, i :: p)))
             | (s', (c', None)) =>
               let '(s'', (l'', err)) := go l' (Datatypes.S i) s' in (s'', (c' :: l'', err))
             end
           end) l i s0 = (s1, (l', err)) ->
        Forall G l' /\ (forall z p, err = Some (z, p) -> exists j q c, p = (i + j) :: q /\ nth_error l' j = Some c /\ pinned c q)).
      { clear X IH Gc. induction l as [|c l IHl]; intros i s0 s2 l' err0 Gl F X. { injection X as _ <- <-. split; [constructor|discriminate]. }
        inversion Gl; subst. inversion F; subst. destruct (tree_reduce_constant_subtrees lis s0 c) as [s3 [c' [[z p]|]]] eqn:Ec.
        - injection X as _ <- <-. destruct (H3 _ _ _ _ H1 Ec) as [A B]. split; [constructor; auto|]. intros z' p' H. injection H as <- <-.
          exists 0, p, c'. rewrite Nat.add_0_r. split; auto. split; auto. eapply B; reflexivity.
        - match type of X with (let '(_, _) := ?x in _) = _ => destruct x as [s4 [l'' err']] eqn:Y end. injection X as _ <- <-.
          destruct (H3 _ _ _ _ H1 Ec) as [A _]. destruct (IHl _ _ _ _ _ H2 H4 Y) as [B C]. split; [constructor; auto|].
          intros z p H. destruct (C z p H) as (j & q & d & -> & Nj & Pq). exists (Datatypes.S j), q, d. split; [f_equal; lia|auto]. }
      destruct (K cs 0 _ _ _ _ Gc IH X) as [A B]. split. { apply G_op. auto. }
      intros z p H. destruct (B z p H) as (j & q & c & -> & Nj & Pq). eapply pinned_down; [exact Nj|exact Pq].
Qed.

(** ** The steps of simplification *)
Section Steps.
Variable L : libm.
Variable fuel : nat.
Lemma constants_good : forall w t w' t' e, G t -> reduce_constants L fuel w t = Done (Ok (w', (t', e))) -> G t' /\ (forall z p, e = Some (z, p) -> pinned t' p).
Proof.
  intros w t w' t' e Gt E. unfold reduce_constants in E. destruct (tree_reduce_constant_subtrees (arith_listener L fuel) (Done (Ok w)) t) as [s' [t1 e1]] eqn:X.
  apply reduce_good in X; auto. destruct s' as [[w1| |]|]; try discriminate E. injection E as _ <- <-. auto.
Qed.
Variables (g pc : ctx).
Lemma neg_good : forall m t, G t -> G (replace_negative_consts m t).
Proof.
  intros m t. induction t as [v k|x i k|op cs k IH] using node_ind'; intros Gt; cbn [replace_negative_consts]; auto.
  - destruct (dltb v d0); [|exact Gt]. apply G_op. split; [exact Gt|]. constructor; auto.
  - apply G_op in Gt. destruct Gt as [Qo Gc]. apply G_op. split; auto. rewrite Forall_forall in *. intros c I. apply in_map_iff in I. destruct I as (c' & <- & I). auto.
Qed.
Lemma loop_good : forall rounds w t rs w' t', G t -> Forall headed rs ->
  simplification_loop L fuel pc rounds w t rs = Done (Ok (w', t')) -> G t'.
Proof.
  induction rounds as [|k IH]; intros w t rs w' t' Gt F E; cbn [simplification_loop] in E. { discriminate E. }
  apply L_OpsKept.lift_inv in E. destruct E as (o & A & E). destruct o as [[t1 n]|]; [|discriminate E].
  pose proof (ruleset_good _ _ _ _ _ _ _ _ Gt F A) as G1. destruct n as [|n].
  - injection E as _ <-. auto.
  - apply L_OpsKept.obind_inv in E. destruct E as (w1 & [t2 e] & Ec & E). apply constants_good in Ec; auto. eapply IH; [| |exact E]; auto. apply Ec.
Qed.
Lemma apply_good : forall w t rs w' t', G t -> Forall headed rs ->
  apply_simplification L fuel g pc w t rs = Done (Ok (w', t')) -> G t'.
Proof.
  intros w t rs w' t' Gt F E. unfold apply_simplification in E. apply L_OpsKept.obind_inv in E. destruct E as (w1 & t1 & A & E).
  apply L_OpsKept.lift_inv in E. destruct E as (m & Em & E). injection E as _ <-. apply neg_good; auto. eapply loop_good; [exact Gt|exact F|exact A].
Qed.
(** No pattern is a single variable, and the replacement of the short form of derivatives has the form op(a, z) with a
    variable z. *)
Definition local (s : simp) : Prop :=
  Forall (Forall headed) (s_rulesets s) /\ (forall b, s_before s = Some b -> is_var (pt_tree b) = false) /\
  is_var (pt_tree (s_malformed s)) = false /\ (exists op a x i k j, s_after s = Some (NOp op [a; NVar x i k] j)).
Variable s : simp.
Hypothesis TS : local s.
Lemma set_local : forall i, Forall headed (nth i (s_rulesets s) []).
Proof. intros i. destruct TS as [A _]. destruct (nth_in_or_default i (s_rulesets s) []) as [I|E]; [rewrite Forall_forall in A; auto|rewrite E; constructor]. Qed.
Lemma pinned_self : forall t p n, pinned t p -> is_var n = false -> pinned (replace_at t p n) p.
Proof.
  intros t p. revert t. induction p as [|i p IH]; intros t n (m & D & V) Vn. { exists n. auto. }
  destruct t as [| |op cs k]; try discriminate D. cbn [deref] in D. unfold vget in D. cbn [replace_at]. destruct (nth_error cs i) as [c|] eqn:N; cbn [rbind] in D; [|discriminate D].
  eapply pinned_down; [|apply IH; [exists m; split; [exact D|exact V]|exact Vn]].
  clear - N. revert i N. induction cs as [|d cs IH]; intros [|i] N; try discriminate N; simpl; auto.
Qed.
Lemma shorthand_good : forall rounds w t w' t' e, G t -> shorthand_loop rounds s w t = Done (Ok (w', (t', e))) -> G t' /\ (forall z p, e = Some (z, p) -> pinned t' p).
Proof.
  destruct TS as (_ & TB & _ & TA). destruct TA as (aop & aa & ax & ai & ak & aj & SA).
  induction rounds as [|k IH]; intros w t w' t' e Gt E; cbn [shorthand_loop] in E. { discriminate E. }
  destruct (s_before s) as [pat|]; [|discriminate E]. apply L_OpsKept.lift_inv in E. destruct E as ([[q m]|] & F & E); [|injection E as _ <- <-; split; [auto|discriminate]].
  apply L_OpsKept.lift_inv in E. destruct E as (matched & Dm & E).
  pose proof (G_deref _ _ _ Gt Dm) as Gm.
  assert (LV : forall n buf f, G n -> G (fst (list_variables_rec n buf f)) /\ is_var (fst (list_variables_rec n buf f)) = is_var n).
  { clear. induction n as [v k|x i k|op cs k IH] using node_ind'; intros buf f Gn; cbn [list_variables_rec]; destruct f as [vs|]; try (split; [first [exact Logic.I|exact Gn]|reflexivity]; fail).
    - destruct (index_of x vs); [split; [exact Logic.I|reflexivity]|]. destruct (_ <? _); split; [exact Logic.I|reflexivity|exact Logic.I|reflexivity].
    - apply G_op in Gn. destruct Gn as [Qo Gc].
      match goal with |- G (fst match ?x with _ => _ end) /\ _ => assert (K : Forall G (fst x)); [|destruct x; split; [apply G_op; auto|reflexivity]] end.
      generalize (Some vs). induction cs as [|c cs IHc]; intros f; [constructor|]. inversion IH; subst. inversion Gc; subst.
      pose proof (proj1 (H1 buf f H3)) as Hc. destruct (list_variables_rec c buf f) as [c' f1]. specialize (IHc H2 H4 f1).
      match goal with |- context [match ?x with pair _ _ => _ end] => destruct x as [l'' f2] end. constructor; auto. }
  pose proof (find_root _ _ _ _ _ (TB _ eq_refl) F) as PQ.
  assert (Vm : is_var matched = false). { destruct PQ as (n & D & V). congruence. }
  destruct (list_variables matched 2) as [[matched' vars] count] eqn:EL.
  assert (Gm' : G matched' /\ is_var matched' = false).
  { unfold list_variables in EL. pose proof (LV matched 2 (Some []) Gm) as X. rewrite Vm in X. destruct (list_variables_rec matched 2 (Some [])) as [a [b|]]; injection EL as <- _ _; exact X. }
  destruct Gm' as [Gm' Vm'].
  destruct (1 <? count). { injection E as _ <- <-. split; [apply G_replace; auto|]. intros z p H. injection H as _ <-. apply pinned_self; auto. }
  rewrite SA in E.
  apply L_OpsKept.lift_inv in E. destruct E as (l & El & E). apply mapped_list_good in El; [|exact (find_good _ _ _ _ _ Gt F)]. destruct l as [|x l]; [discriminate E|]. inversion El; subst.
  eapply IH; [|exact E]. apply G_replace; auto. apply G_op. split; [apply G_tok; auto|]. rewrite tree_copy_id. constructor; [|constructor; auto].
  { match goal with H : G x |- _ => pose proof (proj1 (LV x 2 (Some []) H)) as X end. unfold list_variables. destruct (list_variables_rec x 2 (Some [])) as [a [b|]]; exact X. }
  destruct vars as [[|v vs]|]; exact Logic.I.
Qed.
Lemma find_op_at : forall op t p, find_op t op = Some p -> pinned t p.
Proof.
  intros op. induction t as [v k|x i k|o cs k IH] using node_ind'; intros p E; cbn [find_op] in E; try discriminate E.
  destruct (_ =? _). { injection E as <-. exists (NOp o cs k). auto. }
  assert (K : forall l i, (forall j c, nth_error l j = Some c -> nth_error cs (i + j) = Some c) -> Forall (fun c => forall p, find_op c op = Some p -> pinned c p) l ->
    (fix go (l : list node) (i : nat) : option path :=
            match l with
            | [] => None
            | c :: l' => match find_op c op with
                         | Some q => Some (i :: q)
                         | None => go l' (S i)
                         end
            end) l i = Some p -> pinned (NOp o cs k) p).
  { clear E IH. induction l as [|c l IHl]; intros i N F E. { discriminate E. } inversion F; subst.
    destruct (find_op c op) as [q|] eqn:Fc.
    - injection E as <-. eapply pinned_down; [|eapply H1; reflexivity]. rewrite <- (Nat.add_0_r i). apply N. reflexivity.
    - eapply IHl; [|auto|exact E]. intros j d Ej. rewrite Nat.add_succ_l, <- Nat.add_succ_r. apply N. exact Ej. }
  apply (K cs 0); auto.
Qed.
Lemma derivatives_good : forall w t w' t' e, G t -> apply_derivatives L fuel g pc s w t = Done (Ok (w', (t', e))) -> G t' /\ (forall z p, e = Some (z, p) -> pinned t' p).
Proof.
  intros w t w' t' e Gt E. unfold apply_derivatives in E. apply L_OpsKept.obind_inv in E. destruct E as (w1 & [t1 [e1|]] & A & E); apply shorthand_good in A; auto; destruct A as [A A'].
  - injection E as _ <- <-. auto.
  - apply L_OpsKept.lift_inv in E. destruct E as ([[p m]|] & F & E).
    { injection E as _ <- <-. split; auto. intros z p' H. injection H as _ <-. eapply find_root; [|exact F]. apply TS. }
    apply L_OpsKept.obind_inv in E. destruct E as (w2 & t2 & B & E). apply apply_good in B; auto using set_local. destruct (s_after s) as [[| |op cs j]|]; try discriminate E.
    destruct (find_op t2 op) eqn:Fo; injection E as _ <- <-; split; auto; try discriminate. intros z p' H. injection H as _ <-. eapply find_op_at; eauto.
Qed.
Lemma without_good : forall w t w' t', G t -> simplify_without_derivative L fuel g pc s w t = Done (Ok (w', t')) -> G t'.
Proof.
  intros w t w' t' Gt. unfold simplify_without_derivative.
  assert (K : forall l (o : out node), (forall w1 t1, o = Done (Ok (w1, t1)) -> G t1) ->
    forall w' t', fold_left (fun o i => obind o (fun w' t' => apply_simplification L fuel g pc w' t' (nth i (s_rulesets s) []))) l o = Done (Ok (w', t')) -> G t').
  { induction l as [|i l IH]; intros o H w1 t1 E; cbn [fold_left] in E; eauto. eapply IH; [|exact E]. intros w2 t2 E2.
    apply L_OpsKept.obind_inv in E2. destruct E2 as (w3 & t3 & -> & E3). eapply apply_good; [|apply set_local|exact E3]. eauto. }
  apply K. intros w1 t1 E. injection E as _ <-. auto.
Qed.
End Steps.
Theorem simplify_good : forall L fuel g pc so w t w' t' e, (forall s, so = Some s -> local s) -> G t ->
  simplify L fuel g pc so w t = Done (Ok (w', (t', e))) -> G t' /\ (forall z p, e = Some (z, p) -> pinned t' p).
Proof.
  intros L fuel g pc so w t w' t' e TS Gt E. unfold simplify in E. apply L_OpsKept.obind_inv in E. destruct E as (w1 & [t1 e1] & A & E). apply constants_good in A; auto. destruct A as [A A'].
  destruct so as [s|]; [|injection E as _ <- <-; auto]. specialize (TS s eq_refl). cbn [fst] in E.
  apply L_OpsKept.obind_inv in E. destruct E as (w2 & t2 & B & E). apply without_good in B; auto.
  apply L_OpsKept.obind_inv in E. destruct E as (w3 & [t3 [e3|]] & C & E); apply derivatives_good in C; auto; destruct C as [C C'].
  - injection E as _ <- <-. auto.
  - apply L_OpsKept.obind_inv in E. destruct E as (w4 & t4 & D & E). apply without_good in D; auto.
    apply L_OpsKept.obind_inv in E. destruct E as (w5 & [t5 [e5|]] & F & E); apply constants_good in F; auto; destruct F as [F F'].
    + injection E as _ <- <-. auto.
    + apply L_OpsKept.lift_inv in E. destruct E as (m & Em & E). injection E as _ <- <-. split; [apply neg_good; auto|discriminate].
Qed.
End Kept.
