(** Replacing calls of user-defined functions: the patterns f(x, y, ...) with distinct variables. *)
From Coq Require Import List Ascii String NArith ZArith Bool Lia Arith.
From Verif Require Import M_Base M_StringUtil M_Tree M_Context M_TreeUtil M_Match S_Engine S_Tree L_Tree S_Match L_Match L_MatchSem L_MatchTop L_MatchRule S_Session.
Import ListNotations.
Open Scope list_scope.
Open Scope nat_scope.

Definition var_node (n : node) : Prop := match n with NVar _ _ _ => True | _ => False end.
(** [r] is the rule the program stores for function [f]. *)
Definition rule_for (r : rule) (f : fundef) : Prop :=
  exists vs k pat, Forall var_node vs /\ flat_map var_names vs = f_params f /\
    get_pattern (NOp (f_op f) vs k) [] = PatOk pat /\ get_rule pat (f_body f) = Some r.
Definition params_ok (f : fundef) : Prop := NoDup (f_params f) /\ Forall (fun x => ~ list_name x) (f_params f).

Lemma firsts_id : forall l, NoDup l -> firsts l = l.
Proof.
  induction l as [|x l IH]; intros N; simpl; auto. inversion N; subst. rewrite IH by auto. f_equal.
  clear IH N H2. induction l as [|y l IHl]; simpl; auto. destruct (name_dec x y) as [->|]; [exfalso; apply H1; left; auto|].
  f_equal. apply IHl. intros I. apply H1. right. auto.
Qed.

Lemma names_incl_dec : forall a b : list cstr, {incl a b} + {~ incl a b}.
Proof.
  intros a b. induction a as [|x a [IH|IH]]. { left. intros ? []. }
  - destruct (in_dec name_dec x b) as [I|I]; [left; intros y [<-|J]; auto|right; intros H; apply I; apply H; left; auto].
  - right. intros H. apply IH. intros y J. apply H. right. auto.
Defined.

(** ** Matching of a flat pattern *)
Section Flat.
Variable ck : node -> res bool.
Variable pat : pattern.
Variable xs : list cstr.
Variable pcs : list node.
Hypothesis few : List.length xs <= MAX_MAPPED_VARS.
Hypothesis len : List.length pcs = List.length xs.
Hypothesis shape : forall i x, nth_error xs i = Some x -> exists t, nth_error pcs i = Some (NVar x i t).
Hypothesis plain : Forall (fun x => ~ list_name x) xs.
Hypothesis no_cons : forall i, nth i (pt_constraints pat) [] = [].

Lemma child_at : forall i p, nth_error pcs i = Some p -> exists x t, p = NVar x i t /\ ~ list_name x.
Proof.
  intros i p E. destruct (nth_error xs i) as [x|] eqn:Ex.
  - destruct (shape i x Ex) as [t Et]. rewrite E in Et. injection Et as ->. exists x, t. split; auto.
    rewrite Forall_forall in plain. apply plain. eapply nth_error_In; eauto.
  - apply nth_error_None in Ex. assert (i < List.length pcs) by (apply nth_error_Some; congruence). lia.
Qed.
Lemma plain_labels : forall m i p last n s, nth_error pcs i = Some p ->
  next_labels m p last n s = if (s <? n)%N then Ok [1%N] else Ok [].
Proof.
  intros m i p last n s E. destruct (child_at i p E) as (x & t & -> & P). cbn [next_labels].
  destruct (ceqb (hd NUL x) MATCHING_LIST_PREFIX) eqn:C; auto. apply is_list_name in C. contradiction.
Qed.
Lemma rsum_ones : forall j, j <= MAX_MAPPED_VARS -> rsum (repeat 1%N j) = N.of_nat j.
Proof.
  induction j as [|j IH]; intros H; auto. cbn [repeat rsum]. rewrite IH by lia. unfold MAX_MAPPED_VARS in H. rewrite add64_small; lia.
Qed.
Lemma dfs_flat : forall tcs m ps j, skipn j pcs = ps -> j <= List.length pcs ->
  dfs tcs m ps (repeat 1%N j) = if j + List.length ps <=? List.length tcs then Ok [repeat 1%N (j + List.length ps)]
                                else match ps with [] => Ok [repeat 1%N j] | _ => Ok [] end.
Proof.
  intros tcs m. induction ps as [|p ps IH]; intros j E Hj.
  - cbn [dfs]. rewrite Nat.add_0_r. destruct (_ <=? _); auto.
  - assert (Ep : nth_error pcs j = Some p). { replace j with (j + 0) by lia. rewrite <- nth_skipn, E. reflexivity. }
    assert (Lj : j < List.length pcs) by (apply nth_error_Some; congruence).
    cbn [dfs]. rewrite (plain_labels m j p) by auto. rewrite rsum_ones by lia.
    destruct (N.ltb_spec (N.of_nat j) (N.of_nat (List.length tcs))) as [H|H]; cbn [rbind].
    + cbn [rflat]. change (1%N :: repeat 1%N j) with (repeat 1%N (S j)). rewrite IH.
      * replace (S j + List.length ps) with (j + List.length (p :: ps)) by (simpl; lia).
        destruct (Nat.leb_spec (j + List.length (p :: ps)) (List.length tcs)) as [K|K]; cbn [rbind app]; auto.
        destruct ps as [|p' ps]; auto. simpl in K. lia.
      * rewrite (skipn_nth _ _ _ _ Ep) in E. congruence.
      * lia.
    + cbn [rflat]. destruct (Nat.leb_spec (j + List.length (p :: ps)) (List.length tcs)) as [K|K]; auto. simpl in K. lia.
Qed.
Fixpoint filled (tcs : list node) (j : nat) : matching :=
  match j with 0 => empty_matching | S j' => set_mapped (filled tcs j') j' (mkNL 1 (skipn j' tcs)) end.
Lemma filled_len : forall tcs j, List.length (filled tcs j) = MAX_MAPPED_VARS.
Proof. induction j as [|j IH]; [reflexivity|]. cbn [filled]. rewrite set_mapped_len. auto. Qed.
Lemma filled_nth : forall tcs j i, j <= MAX_MAPPED_VARS -> i < MAX_MAPPED_VARS ->
  nth_error (filled tcs j) i = Some (if i <? j then Some (mkNL 1 (skipn i tcs)) else None).
Proof.
  intros tcs. induction j as [|j IH]; intros i Hj Hi.
  - cbn [filled]. unfold empty_matching. destruct (Nat.ltb_spec i 0); [lia|]. clear -Hi. revert i Hi. induction MAX_MAPPED_VARS as [|n IH]; intros i Hi; [lia|].
    destruct i; simpl; auto. apply IH. lia.
  - cbn [filled]. rewrite set_mapped_nth, !IH by lia. destruct (Nat.eqb_spec i j) as [->|N].
    + destruct (Nat.ltb_spec j (S j)); [|lia]. reflexivity.
    + destruct (Nat.ltb_spec i j), (Nat.ltb_spec i (S j)); auto; lia.
Qed.
Lemma evr_flat : forall tcs j, j <= List.length pcs ->
  evr (map (extend_matching ck pat) pcs) tcs empty_matching (repeat 1%N j) = Ok [filled tcs j].
Proof.
  intros tcs. induction j as [|j IH]; intros Hj; [reflexivity|].
  cbn [repeat evr]. rewrite IH by lia. cbn [rbind]. unfold ext_at. rewrite repeat_length.
  destruct (nth_error pcs j) as [p|] eqn:Ep. 2: { apply nth_error_None in Ep. lia. }
  destruct (child_at j p Ep) as (x & t & -> & _).
  assert (V : vget (map (extend_matching ck pat) pcs) j = Ok (extend_matching ck pat (NVar x j t))).
  { apply vget_nth. rewrite nth_error_map, Ep. reflexivity. }
  rewrite V. cbn [rbind rflat]. rewrite rsum_ones by lia. rewrite Nat2N.id.
  cbn [extend_matching]. unfold mapped. rewrite filled_nth by lia. destruct (Nat.ltb_spec j j); [lia|]. cbn [rbind].
  rewrite no_cons. cbn [check_constraints rbind]. reflexivity.
Qed.
Lemma ids_flat : forall p, In p pcs -> match p with NVar _ id _ => id < List.length empty_matching | _ => True end.
Proof.
  intros p I. destruct (In_nth_error _ _ I) as [i E]. destruct (child_at i p E) as (x & t & -> & _).
  assert (i < List.length pcs) by (apply nth_error_Some; congruence). change (List.length empty_matching) with MAX_MAPPED_VARS. lia.
Qed.
Lemma mpl_flat : forall tcs, match_parameter_lists (map (extend_matching ck pat) pcs) pcs tcs empty_matching =
  if List.length tcs =? List.length xs then Ok [filled tcs (List.length xs)] else Ok [].
Proof.
  intros tcs. rewrite mpl_spec; [|rewrite map_length; auto|apply ids_flat].
  change (@nil N) with (repeat 1%N 0). rewrite (dfs_flat tcs empty_matching pcs 0) by (auto; lia). cbn [Nat.add].
  destruct (Nat.eqb_spec (List.length tcs) (List.length xs)) as [E|E].
  - destruct (Nat.leb_spec (List.length pcs) (List.length tcs)); [|lia]. cbn [rbind filter]. unfold final. rewrite rsum_ones by lia.
    destruct (N.eqb_spec (N.of_nat (List.length pcs)) (N.of_nat (List.length tcs))); [|lia]. cbn [rflat].
    rewrite evr_flat by lia. cbn [rbind]. rewrite len. reflexivity.
  - destruct (Nat.leb_spec (List.length pcs) (List.length tcs)).
    + cbn [rbind filter]. unfold final. rewrite rsum_ones by lia.
      destruct (N.eqb_spec (N.of_nat (List.length pcs)) (N.of_nat (List.length tcs))); [lia|]. reflexivity.
    + destruct pcs as [|p ps]; [simpl in *; lia|]. reflexivity.
Qed.

(** The tree built from the matching *)
Lemma skipn_hd : forall A (l : list A) i a, nth_error l i = Some a -> exists r, skipn i l = a :: r.
Proof. intros A l i a E. exists (skipn (S i) l). apply skipn_nth. auto. Qed.
Lemma arg_nth : forall ys (tcs : list node) i x, NoDup ys -> nth_error ys i = Some x -> arg_of ys tcs x = nth_error tcs i.
Proof.
  induction ys as [|y ys IH]; intros tcs i x N E. { destruct i; discriminate E. }
  inversion N; subst. destruct tcs as [|a tcs]. { simpl. destruct i; reflexivity. } simpl. destruct i as [|i].
  - simpl in E. injection E as ->. destruct (name_dec x x); [reflexivity|congruence].
  - simpl in E. destruct (name_dec y x) as [->|]; [exfalso; apply H1; eapply nth_error_In; eauto|]. simpl. apply IH; auto.
Qed.
Section Build.
Variable tcs : list node.
Hypothesis full : List.length tcs = List.length xs.
Hypothesis dist : NoDup xs.
Let m := filled tcs (List.length xs).
Lemma pos_arg : forall x, In x xs -> exists a r, arg_of xs tcs x = Some a /\ nth_error m (pos_in xs x) = Some (Some (mkNL 1 (a :: r))).
Proof.
  intros x I. pose proof (pos_in_nth xs x I) as E. assert (L : pos_in xs x < List.length xs) by (apply nth_error_Some; congruence).
  destruct (nth_error tcs (pos_in xs x)) as [a|] eqn:Ea. 2: { apply nth_error_None in Ea. lia. }
  destruct (skipn_hd _ _ _ _ Ea) as [r Er]. exists a, r. split. { rewrite (arg_nth xs tcs _ x dist E). auto. }
  unfold m. rewrite filled_nth by lia. destruct (Nat.ltb_spec (pos_in xs x) (List.length xs)); [|lia]. rewrite Er. reflexivity.
Qed.
Lemma child_fill : forall k b, incl (var_names b) xs ->
  transform_child m (located k (with_ids (pos_in xs) b)) = Ok [fill k xs tcs b].
Proof.
  intros k. induction b as [v t|x i t|op cs t IH] using node_ind'; intros I.
  - reflexivity.
  - cbn [with_ids located transform_child fill]. destruct (pos_arg x (I x (or_introl eq_refl))) as (a & r & Ea & Em).
    unfold mapped_list, mapped. rewrite Em. cbn [rbind]. unfold nl_read. cbn [nl_size nl_nodes].
    destruct (N.leb_spec 1 (N.of_nat (List.length (a :: r)))) as [_|H]; [|simpl in H; lia]. cbn [rbind]. rewrite Ea. simpl. rewrite tree_copy_id. reflexivity.
  - cbn [with_ids located fill]. cbn [transform_child].
    fold (tr_list m (map (located k) (map (with_ids (pos_in xs)) cs))).
    assert (E : tr_list m (map (located k) (map (with_ids (pos_in xs)) cs)) = Ok (map (fill k xs tcs) cs)).
    { cbn [var_names] in I. clear t op. induction cs as [|c cs IHc]; auto. inversion IH; subst. simpl in I. cbn [map tr_list].
      rewrite H1 by (intros y Iy; apply I; apply in_or_app; auto). cbn [rbind].
      fold (tr_list m (map (located k) (map (with_ids (pos_in xs)) cs))). rewrite IHc; auto. intros y Iy. apply I. apply in_or_app. auto. }
    rewrite E. reflexivity.
Qed.
Lemma build_fill : forall k b, incl (var_names b) xs ->
  transform_by_matching m (located k (with_ids (pos_in xs) b)) = Ok (fill k xs tcs b).
Proof.
  intros k [v t|x i t|op cs t] I.
  - reflexivity.
  - cbn [with_ids located transform_by_matching fill]. destruct (pos_arg x (I x (or_introl eq_refl))) as (a & r & Ea & Em).
    unfold mapped. rewrite Em. cbn [rbind nl_size nl_nodes N.eqb]. rewrite Ea, tree_copy_id. reflexivity.
  - pose proof (child_fill k (NOp op cs t) I) as E. cbn [with_ids located transform_child] in E.
    cbn [with_ids located transform_by_matching]. rewrite <- tr_list_eq. unfold tr_list.
    destruct ((fix go (l : list node) := _) _) as [l| |]; cbn [rbind] in E |- *; try discriminate E.
    injection E as E. rewrite E. reflexivity.
Qed.
End Build.
End Flat.

(** ** One replacement *)
Definition hits (f : fundef) (op : operator) (n : nat) : Prop := o_id op = o_id (f_op f) /\ n = List.length (f_params f).
Lemma vars_shape : forall vs xs, Forall var_node vs -> flat_map var_names vs = xs -> NoDup xs ->
  forall i x, nth_error xs i = Some x -> exists t, nth_error (map (with_ids (pos_in xs)) vs) i = Some (NVar x i t).
Proof.
  intros vs xs V E N i x Ei.
  assert (H : exists d t, nth_error vs i = Some (NVar x d t)).
  { clear N. revert xs i E Ei. induction vs as [|v vs IH]; intros xs i E Ei; simpl in E; subst xs. { destruct i; discriminate Ei. }
    inversion V; subst. destruct v as [|y d t|]; try contradiction. simpl in Ei. destruct i as [|i]; simpl in Ei.
    - injection Ei as ->. exists d, t. reflexivity.
    - destruct (IH H2 _ i eq_refl Ei) as (d' & t' & ?). exists d', t'. auto. }
  destruct H as (d & t & H). exists t. rewrite nth_error_map, H. simpl. do 2 f_equal.
  pose proof (pos_in_nth xs x (nth_error_In _ _ Ei)) as Q. rewrite NoDup_nth_error in N. apply N; [apply nth_error_Some; congruence|congruence].
Qed.
Lemma vars_len : forall vs, Forall var_node vs -> List.length (flat_map var_names vs) = List.length vs.
Proof. induction 1 as [|v vs V _ IH]; auto. simpl. rewrite app_length, IH. destruct v; try contradiction. reflexivity. Qed.

Section OneRule.
Variable ck : node -> res bool.
Variables (r : rule) (f : fundef).
Hypothesis R : rule_for r f.
Hypothesis Pk : params_ok f.
Let xs := f_params f.
Lemma rule_facts : exists k vs, List.length xs <= MAX_MAPPED_VARS /\ pt_tree (r_pat r) = NOp (f_op f) (map (with_ids (pos_in xs)) vs) k /\
  List.length vs = List.length xs /\ (forall i x, nth_error xs i = Some x -> exists t, nth_error (map (with_ids (pos_in xs)) vs) i = Some (NVar x i t)) /\
  (forall i, nth i (pt_constraints (r_pat r)) [] = []) /\ incl (var_names (f_body f)) xs /\ r_after r = with_ids (pos_in xs) (f_body f).
Proof.
  destruct R as (vs & k & pat & V & E & GP & GR). destruct Pk as [N _]. exists k, vs.
  destruct (get_pattern_spec _ _ _ GP) as (L & ET & C). cbn [var_names] in L, ET. rewrite E, (firsts_id _ N) in L, ET.
  pose proof (get_rule_spec _ _ _ (f_body f) GP) as [A B].
  assert (I : incl (var_names (f_body f)) (var_names (NOp (f_op f) vs k))).
  { destruct (names_incl_dec (var_names (f_body f)) (var_names (NOp (f_op f) vs k))) as [I|I]; auto. rewrite (B I) in GR. discriminate GR. }
  rewrite (A I) in GR. injection GR as <-. cbn [r_pat r_after]. cbn [var_names] in I |- *. rewrite E in I |- *. rewrite (firsts_id _ N). fold xs.
  split; auto. split; auto. split. { rewrite <- vars_len by auto. rewrite E. reflexivity. }
  split. { apply vars_shape; auto. } split; [|auto].
  intros i. destruct (nth i (pt_constraints pat) []) as [|c l] eqn:Q; auto. exfalso.
  destruct (proj1 (C i c)) as (d & [] & _). rewrite Q. left. auto.
Qed.
Lemma get_flat : forall t, get_matching ck (r_pat r) t =
  Ok (match t with
      | NOp op args _ => if (o_id (f_op f) =? o_id op) && (List.length args =? List.length xs) then Some (filled args (List.length xs)) else None
      | _ => None
      end).
Proof.
  destruct rule_facts as (k & vs & L & ET & LV & SH & NC & _). intros t. unfold get_matching, get_all_matchings. rewrite ET.
  cbn [extend_matching nl_size nl_nodes N.eqb vget nth_error rbind]. unfold vget. cbn [nth_error rbind]. destruct t as [v j|x i j|op args j]; try reflexivity.
  destruct (o_id (f_op f) =? o_id op); [|reflexivity]. cbn [andb].
  rewrite (mpl_flat ck (r_pat r) xs (map (with_ids (pos_in xs)) vs)); auto; [|rewrite map_length; auto|destruct Pk; auto].
  destruct (_ =? _); reflexivity.
Qed.
Lemma find_total : forall t, exists o, find_matching ck (r_pat r) t = Ok o.
Proof.
  induction t as [v k|x i k|op cs k IH] using node_ind'; cbn [find_matching]; rewrite get_flat; cbn [rbind]; eauto.
  destruct (_ && _); eauto. fold (find_list ck (r_pat r) (NOp op cs k) cs 0). generalize (NOp op cs k) as T. intros T. generalize 0. induction IH as [|c cs [o Hc] _ IHc]; intros i; cbn [find_list]; eauto.
  rewrite Hc. cbn [rbind]. destruct o as [[p m]|]; [eauto|]. exact (IHc (S i)).
Qed.
(** The rule replaces one call, or there is none. *)
Theorem apply_flat : forall t,
  (exists q op args k, subtree t q = Some (NOp op args k) /\ hits f op (List.length args) /\
     apply_rule ck t r = Ok (Some (replace_at t q (fill k xs args (f_body f))))) \/
  (apply_rule ck t r = Ok None /\ forall q op args k, subtree t q = Some (NOp op args k) -> ~ hits f op (List.length args)).
Proof.
  intros t. destruct (find_total t) as [o E]. pose proof (find_spec ck (r_pat r) t o E) as S. unfold apply_rule. rewrite E. cbn [rbind].
  destruct o as [[q m]|].
  - left. destruct S as (l1 & l2 & sub & _ & Es & G & _). rewrite get_flat in G. destruct sub as [|?|op args k]; try discriminate G.
    destruct (Nat.eqb_spec (o_id (f_op f)) (o_id op)) as [I|]; [|discriminate G]. destruct (Nat.eqb_spec (List.length args) (List.length xs)) as [Le|]; [|discriminate G].
    cbn [andb] in G. injection G as <-. exists q, op, args, k. split; auto. split. { split; auto. }
    rewrite (deref_subtree _ _ _ Es). cbn [rbind get_token_index]. rewrite tree_copy_id, set_tok_located.
    destruct rule_facts as (k' & vs & L & ET & LV & SH & NC & I' & ->). destruct Pk as [N PL].
    rewrite build_fill with (pcs := map (with_ids (pos_in xs)) vs); auto. rewrite map_length. auto.
  - right. split; auto. intros q op args k Es [I Le]. rewrite Forall_forall in S.
    specialize (S q (positions_complete _ _ _ Es) _ Es). rewrite get_flat in S. rewrite I, Nat.eqb_refl, Le in S. fold xs in S. rewrite Nat.eqb_refl in S. discriminate S.
Qed.
End OneRule.

(** ** Conditions on every operator of a tree *)
Fixpoint all_ops (P : operator -> nat -> Prop) (t : node) : Prop :=
  match t with
  | NOp op cs _ => P op (List.length cs) /\ (fix go (l : list node) : Prop := match l with [] => True | c :: l' => all_ops P c /\ go l' end) cs
  | _ => True
  end.
Lemma all_ops_op : forall P op cs k, all_ops P (NOp op cs k) <-> P op (List.length cs) /\ Forall (all_ops P) cs.
Proof.
  intros P op cs k. cbn [all_ops]. apply and_iff_compat_l. induction cs as [|c cs IH]; split; intros H; auto.
  - destruct H. constructor; auto. apply IH. auto.
  - inversion H; subst. split; auto. apply IH. auto.
Qed.
Lemma all_ops_sub : forall P q t s, all_ops P t -> subtree t q = Some s -> all_ops P s.
Proof.
  induction q as [|i q IH]; intros t s A E. { injection E as <-. auto. }
  destruct t as [| |op l k]; try discriminate E. cbn [subtree] in E. destruct (nth_error l i) as [c|] eqn:Ei; [|discriminate E].
  apply all_ops_op in A. destruct A as [_ A]. rewrite Forall_forall in A. eapply IH; [|exact E]. apply A. eapply nth_error_In; eauto.
Qed.
Lemma vset_len : forall A (l : list A) i x, List.length (vset l i x) = List.length l.
Proof. induction l as [|a l IH]; intros [|i] x; simpl; auto. Qed.
Lemma vset_Forall : forall A (P : A -> Prop) l i x, Forall P l -> P x -> Forall P (vset l i x).
Proof. induction l as [|a l IH]; intros [|i] x F H; simpl; auto; inversion F; subst; constructor; auto. Qed.
Lemma all_ops_replace : forall P q t n, all_ops P t -> all_ops P n -> all_ops P (replace_at t q n).
Proof.
  induction q as [|i q IH]; intros t n A B; auto. destruct t as [| |op l k]; auto. cbn [replace_at]. destruct (nth_error l i) as [c|] eqn:Ei; auto.
  apply all_ops_op in A. destruct A as [A1 A2]. apply all_ops_op. rewrite vset_len. split; auto. apply vset_Forall; auto. apply IH; auto.
  rewrite Forall_forall in A2. apply A2. eapply nth_error_In; eauto.
Qed.
Lemma arg_In : forall xs args x a, arg_of xs args x = Some a -> In a args.
Proof. induction xs as [|y xs IH]; intros [|b args] x a E; simpl in E; try discriminate E. destruct (name_dec y x); [injection E as ->; left; auto|right; eauto]. Qed.
Lemma all_ops_fill : forall P k xs args b, all_ops P b -> Forall (all_ops P) args -> all_ops P (fill k xs args b).
Proof.
  intros P k xs args. induction b as [v t|x i t|op cs t IH] using node_ind'; intros B A; simpl fill; try exact Logic.I.
  - destruct (arg_of xs args x) as [a|] eqn:E; [|exact Logic.I]. rewrite Forall_forall in A. apply A. eapply arg_In; eauto.
  - apply all_ops_op in B. destruct B as [B1 B2]. apply all_ops_op. rewrite map_length. split; auto. rewrite Forall_forall in IH, B2 |- *. intros c Ic. apply in_map_iff in Ic. destruct Ic as (c' & <- & Ic). auto.
Qed.
Lemma all_ops_impl : forall (P Q : operator -> nat -> Prop) t, (forall op n, P op n -> Q op n) -> all_ops P t -> all_ops Q t.
Proof.
  intros P Q t H. induction t as [v k|x i k|op cs k IH] using node_ind'; intros A; auto. apply all_ops_op in A. apply all_ops_op. destruct A. split; auto.
  rewrite Forall_forall in *. auto.
Qed.
Lemma all_ops_all : forall (P : operator -> nat -> Prop) t, (forall q op args k, subtree t q = Some (NOp op args k) -> P op (List.length args)) -> all_ops P t.
Proof.
  intros P. induction t as [v k|x i k|op cs k IH] using node_ind'; intros A; try exact Logic.I. apply all_ops_op. split. { apply (A [] op cs k). reflexivity. }
  rewrite Forall_forall in *. intros c Ic. apply IH; auto. intros q op' args k' E. destruct (In_nth_error _ _ Ic) as [i Ei]. apply (A (i :: q) op' args k'). cbn [subtree]. rewrite Ei. auto.
Qed.

(** ** Termination *)
Definition id_of (f : fundef) : nat := o_id (f_op f).
Definition hitb (fs : list fundef) (op : operator) (n : nat) : bool :=
  existsb (fun f => (o_id op =? id_of f) && (n =? List.length (f_params f))) fs.
Lemma hitb_spec : forall fs op n, hitb fs op n = true <-> exists f, In f fs /\ hits f op n.
Proof.
  intros fs op n. unfold hitb. rewrite existsb_exists. split; intros (f & I & H); exists f; (split; auto).
  - apply andb_prop in H. destruct H as [A B]. apply Nat.eqb_eq in A, B. split; auto.
  - destruct H as [A B]. unfold id_of. rewrite A, <- B, !Nat.eqb_refl. reflexivity.
Qed.
(** The operator has the number of no function. *)
Definition no_id (fs : list fundef) (op : operator) (_ : nat) : Prop := forall f, In f fs -> o_id op <> id_of f.
Section Measure.
Variable fs : list fundef.
Variable K : nat.
Fixpoint wt (t : node) : nat :=
  match t with
  | NOp op cs _ => let s := list_sum (map wt cs) in if hitb fs op (List.length cs) then 1 + K * s else s
  | _ => 0
  end.
Fixpoint occ (b : node) : nat := match b with NConst _ _ => 0 | NVar _ _ _ => 1 | NOp _ cs _ => list_sum (map occ cs) end.
Hypothesis K1 : 1 <= K.
Lemma sum_In : forall (l : list nat) x, In x l -> x <= list_sum l.
Proof. induction l as [|y l IH]; intros x H; [destruct H|]. simpl. destruct H as [->|H]; [lia|]. specialize (IH x H). lia. Qed.
Lemma wt_fill : forall k xs args b, all_ops (no_id fs) b -> wt (fill k xs args b) <= occ b * list_sum (map wt args).
Proof.
  intros k xs args. induction b as [v t|x i t|op cs t IH] using node_ind'; intros B; cbn [fill occ]; [simpl; lia| |].
  - destruct (arg_of xs args x) as [a|] eqn:E; [|simpl; lia]. rewrite Nat.mul_1_l. apply sum_In. apply in_map. eapply arg_In; eauto.
  - apply all_ops_op in B. destruct B as [B1 B2]. cbn [wt]. rewrite map_length.
    destruct (hitb fs op (List.length cs)) eqn:H. { apply hitb_spec in H. destruct H as (f & If & Hi & _). exfalso. apply (B1 f If). auto. }
    clear H B1. induction cs as [|c cs IHc]; [simpl; lia|]. inversion IH; subst. inversion B2; subst. simpl. specialize (IHc H2 H4). specialize (H1 H3). lia.
Qed.
Lemma sum_vset : forall l i c d, nth_error l i = Some c -> wt d < wt c -> list_sum (map wt (vset l i d)) < list_sum (map wt l).
Proof. induction l as [|a l IH]; intros [|i] c d E H; simpl in *; try discriminate E. - injection E as ->. lia. - specialize (IH i c d E H). lia. Qed.
Lemma wt_replace : forall q t s n, subtree t q = Some s -> wt n < wt s -> wt (replace_at t q n) < wt t.
Proof.
  induction q as [|i q IH]; intros t s n E H. { injection E as <-. auto. }
  destruct t as [| |op l k]; try discriminate E. cbn [subtree] in E. cbn [replace_at]. destruct (nth_error l i) as [c|] eqn:Ei; [|discriminate E].
  specialize (IH c s n E H). pose proof (sum_vset l i c _ Ei IH) as S. cbn [wt]. rewrite vset_len. destruct (hitb fs op (List.length l)); [|auto].
  apply -> Nat.succ_lt_mono. apply Nat.mul_lt_mono_pos_l; [lia|auto].
Qed.
End Measure.

Section Expand.
Variable ck : node -> res bool.
Variables (rs : list rule) (fs : list fundef).
Hypothesis RF : Forall2 rule_for rs fs.
Hypothesis PO : Forall params_ok fs.
Hypothesis BF : forall f, In f fs -> all_ops (no_id fs) (f_body f).

(** A call is replaced by the body of the function, the arguments in place of the parameters. *)
Definition replaced_call (t t' : node) : Prop :=
  exists f q op args k, In f fs /\ subtree t q = Some (NOp op args k) /\ hits f op (List.length args) /\
    t' = replace_at t q (fill k (f_params f) args (f_body f)).
Lemma first_flat : forall t, (exists t', apply_first ck t rs = Ok (Some t') /\ replaced_call t t') \/
  (apply_first ck t rs = Ok None /\ all_ops (fun op n => forall f, In f fs -> ~ hits f op n) t).
Proof.
  intros t. unfold replaced_call. clear BF. revert PO. induction RF as [|r f rs' fs' H HF IH]; intros PO'; cbn [apply_first].
  - right. split; auto. apply all_ops_all. intros; contradiction.
  - inversion PO'; subst. destruct (apply_flat ck r f H H2 t) as [(q & op & args & k & E & Hi & A)|[A N]]; rewrite A; cbn [rbind].
    + left. eexists. split; [reflexivity|]. exists f, q, op, args, k. split; [left; auto|]. auto.
    + destruct (IH HF H3) as [(t' & B & f' & q & op & args & k & I & C)|[B C]].
      * left. exists t'. split; auto. exists f', q, op, args, k. split; [right; auto|auto].
      * right. split; auto. apply all_ops_all. intros q op args k E f' [<-|I]; eauto.
        pose proof (all_ops_sub _ _ _ _ C E) as D. apply all_ops_op in D. destruct D as [D _]. auto.
Qed.
Definition K := S (list_sum (map (fun f => occ (f_body f)) fs)).
Lemma replaced_less : forall t t', replaced_call t t' -> wt fs K t' < wt fs K t.
Proof.
  intros t t' (f & q & op & args & k & I & E & Hi & ->). eapply wt_replace; [unfold K; lia|exact E|].
  cbn [wt]. assert (Hb : hitb fs op (List.length args) = true) by (apply hitb_spec; eauto). rewrite Hb.
  assert (K1 : 1 <= K) by (unfold K; lia). pose proof (wt_fill fs K K1 k (f_params f) args (f_body f) (BF f I)) as W.
  assert (O : occ (f_body f) <= K). { unfold K at 1. pose proof (sum_In K K1 (map (fun f => occ (f_body f)) fs) (occ (f_body f))) as Q. specialize (Q (in_map _ _ _ I)). lia. }
  apply (Nat.mul_le_mono_r _ _ (list_sum (map (wt fs K) args))) in O. lia.
Qed.
(** Expansion ends, without undefined behaviour, after a number of replacements that depends on the expression and the functions
    only, and no call of a function is left; every property that replacements keep holds of the result. *)
Theorem expand_loop : forall (Inv : node -> Prop), (forall t t', Inv t -> replaced_call t t' -> Inv t') ->
  forall n t, wt fs K t < n -> Inv t -> forall c, exists t' k, apply_ruleset_loop n ck rs 0 t c = Ok (Some (t', k)) /\ Inv t' /\
    all_ops (fun op m => forall f, In f fs -> ~ hits f op m) t'.
Proof.
  intros Inv Keep. induction n as [|n IH]; intros t L I c; [lia|]. cbn [apply_ruleset_loop].
  destruct (first_flat t) as [(t' & A & Rc)|[A B]]; rewrite A; cbn [rbind].
  - destruct (Nat.eqb_spec (S c) 0) as [Q|_]; [discriminate Q|]. pose proof (replaced_less _ _ Rc). apply IH; eauto. lia.
  - exists t, c. auto.
Qed.

(** *** The result is the expression with its calls expanded. *)
Definition right_call (op : operator) (n : nat) : Prop :=
  forall f, In f fs -> (o_id op = id_of f <-> names f op = true) /\ (names f op = true -> n = List.length (f_params f)).
Hypothesis ND : NoDup (map id_of fs).
Hypothesis BN : forall f, In f fs -> all_ops right_call (f_body f).
Lemma find_mine : forall f op, In f fs -> names f op = true -> right_call op (List.length (f_params f)) -> find (fun g => names g op) fs = Some f.
Proof.
  intros f op I N RC. destruct (find (fun g => names g op) fs) as [g|] eqn:F.
  - apply find_some in F. destruct F as [Ig Ng]. f_equal. apply (proj1 (RC g Ig)) in Ng. apply (proj1 (RC f I)) in N.
    clear - ND I Ig N Ng. rewrite N in Ng. clear N. induction fs as [|h l IH]; [destruct I|]. simpl in ND. inversion ND; subst.
    destruct I as [<-|I], Ig as [<-|Ig]; auto.
    + exfalso. apply H1. rewrite Ng. apply in_map. auto.
    + exfalso. apply H1. rewrite <- Ng. apply in_map. auto.
  - eapply find_none in F; eauto. simpl in F. congruence.
Qed.
Lemma expand_none : forall op, no_id fs op 0 -> (exists n, right_call op n) -> find (fun g => names g op) fs = None.
Proof.
  intros op N [n RC]. destruct (find (fun g => names g op) fs) as [g|] eqn:F; auto. apply find_some in F. destruct F as [Ig Ng].
  apply (proj1 (RC g Ig)) in Ng. exfalso. apply (N g Ig). auto.
Qed.
Lemma expand_fill : forall k xs args b, all_ops (no_id fs) b -> all_ops right_call b ->
  expand fs (fill k xs args b) = fill k xs (map (expand fs) args) b.
Proof.
  intros k xs args. induction b as [v t|x i t|op cs t IH] using node_ind'; intros A B; auto.
  - cbn [fill]. assert (E : arg_of xs (map (expand fs) args) x = option_map (expand fs) (arg_of xs args x)).
    { clear. revert args. induction xs as [|y xs IH]; intros [|a args]; simpl; auto. destruct (name_dec y x); auto. }
    rewrite E. destruct (arg_of xs args x); reflexivity.
  - cbn [fill expand]. apply all_ops_op in A, B. destruct A as [A1 A2], B as [B1 B2]. rewrite expand_none; [|exact A1|eauto].
    f_equal. rewrite map_map. apply map_ext_in. intros c Ic. rewrite Forall_forall in *. auto.
Qed.
Lemma expand_call : forall f op args k, In f fs -> hits f op (List.length args) -> right_call op (List.length args) ->
  expand fs (fill k (f_params f) args (f_body f)) = expand fs (NOp op args k).
Proof.
  intros f op args k I [Hi Hl] RC. rewrite expand_fill; auto. cbn [expand]. rewrite (find_mine f op); auto.
  - apply (proj1 (RC f I)). auto.
  - rewrite <- Hl. auto.
Qed.
Lemma expand_replace : forall q t s n, subtree t q = Some s -> expand fs n = expand fs s -> expand fs (replace_at t q n) = expand fs t.
Proof.
  induction q as [|i q IH]; intros t s n E H. { injection E as <-. auto. }
  destruct t as [| |op l k]; try discriminate E. cbn [subtree] in E. cbn [replace_at]. destruct (nth_error l i) as [c|] eqn:Ei; [|discriminate E].
  specialize (IH c s n E H). cbn [expand]. assert (M : map (expand fs) (vset l i (replace_at c q n)) = map (expand fs) l).
  { clear E H. revert i Ei. induction l as [|a l IHl]; intros [|i] Ei; simpl in *; try discriminate Ei; f_equal; auto. injection Ei as ->. auto. }
  rewrite M. reflexivity.
Qed.
Lemma expand_done : forall t, all_ops right_call t -> all_ops (fun op m => forall f, In f fs -> ~ hits f op m) t -> expand fs t = t.
Proof.
  induction t as [v k|x i k|op cs k IH] using node_ind'; intros A B; auto. apply all_ops_op in A, B. destruct A as [A1 A2], B as [B1 B2]. cbn [expand].
  assert (F : find (fun g => names g op) fs = None).
  { destruct (find (fun g => names g op) fs) as [g|] eqn:F; auto. apply find_some in F. destruct F as [Ig Ng]. exfalso. apply (B1 g Ig). split; [apply (proj1 (A1 g Ig)); auto|apply (proj2 (A1 g Ig)); auto]. }
  rewrite F. f_equal. rewrite Forall_forall in *. rewrite <- (map_id cs) at 2. apply map_ext_in. auto.
Qed.
Theorem expand_exact : forall n t c, wt fs K t < n -> all_ops right_call t ->
  exists k, apply_ruleset_loop n ck rs 0 t c = Ok (Some (expand fs t, k)).
Proof.
  intros n t c L A. destruct (expand_loop (fun u => all_ops right_call u /\ expand fs u = expand fs t)) with (n := n) (t := t) (c := c) as (t' & k & E & [A' Ex] & D); auto.
  - intros u u' [Au Eu] (f & q & op & args & j & I & Es & Hi & ->).
    assert (RC : right_call op (List.length args) /\ Forall (all_ops right_call) args). { apply (all_ops_op right_call op args j). eapply all_ops_sub; eauto. }
    destruct RC as [RC Aa]. split. { apply all_ops_replace; auto. apply all_ops_fill; auto. }
    rewrite <- Eu. eapply expand_replace; [exact Es|]. apply expand_call; auto.
  - exists k. rewrite E. rewrite <- Ex, expand_done; auto.
Qed.
End Expand.
