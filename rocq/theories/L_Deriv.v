(** Lemmas for C73: the two notations of derivatives. *)
From Coq Require Import List Ascii String NArith ZArith Bool Lia Arith.
From Coq.Floats Require Import SpecFloat.
From Verif Require Import M_Base M_Tree M_Context M_Parser M_TreeUtil M_Match M_RuleParsing M_ArithCtx M_Strtod M_Double M_Eval M_Simplify M_ShippedRules S_Tree S_Match
  L_Tree L_MatchTop L_MatchRule L_ArithCtx S_Simplify S_Constraint L_Constraint S_Deriv.
Import ListNotations.
Open Scope string_scope.
Open Scope list_scope.
Open Scope nat_scope.

(** ** Matching parameter lists of one or two variables *)
Lemma mpl_one : forall e k c l, e empty_matching (mkNL 1 [c]) = Ok l ->
  match_parameter_lists [e] [NVar (str "x") 0 k] [c] empty_matching = Ok l.
Proof. intros e k c l H. vm_compute in H. vm_compute. rewrite H. destruct l; vm_compute; reflexivity. Qed.
Definition m_one (a b : node) : matching := set_mapped empty_matching 0 (mkNL 1 [a; b]).
Lemma mpl_two : forall e f k j a b l, e empty_matching (mkNL 1 [a; b]) = Ok [m_one a b] -> f (m_one a b) (mkNL 1 [b]) = Ok l ->
  match_parameter_lists [e; f] [NVar (str "x") 0 k; NVar (str "y") 1 j] [a; b] empty_matching = Ok l.
Proof.
  intros e f k j a b l H K. vm_compute in H. vm_compute in K. vm_compute. rewrite H. vm_compute. rewrite K. destruct l; vm_compute; reflexivity.
Qed.

(** ** The pattern of the short form *)
Section Short.
Variables (prime deriv : operator) (ck : node -> res bool) (pk pj : nat).
Definition short_pattern : pattern := mkPat (NOp prime [NVar (str "x") 0 pk] pj) (repeat [] MAX_MAPPED_VARS).
Notation find := (find_matching ck short_pattern).

Lemma short_here : forall op c k, o_id op = o_id prime -> get_matching ck short_pattern (NOp op [c] k) = Ok (Some (set_mapped empty_matching 0 (mkNL 1 [c]))).
Proof.
  intros op c k E. unfold get_matching, get_all_matchings. cbn [extend_matching short_pattern pt_tree nl_size nl_nodes N.eqb Pos.eqb vget nth_error rbind]. rewrite E, Nat.eqb_refl. cbn [map].
  rewrite (mpl_one _ pk c [set_mapped empty_matching 0 (mkNL 1 [c])]); reflexivity.
Qed.
Lemma short_not : forall t, (forall op cs k, t = NOp op cs k -> o_id op <> o_id prime) -> get_matching ck short_pattern t = Ok None.
Proof.
  intros [v k|x i k|op cs k] H; try reflexivity. unfold get_matching, get_all_matchings. cbn [extend_matching short_pattern pt_tree nl_size nl_nodes N.eqb Pos.eqb vget nth_error rbind].
  specialize (H op cs k eq_refl). destruct (Nat.eqb_spec (o_id prime) (o_id op)) as [E|_]; [symmetry in E; contradiction|reflexivity].
Qed.

(** The first short form, found from the outside to the inside and from left to right *)
Inductive outer : node -> path -> operator -> node -> nat -> Prop :=
| out_here : forall op e k, o_id op = o_id prime -> outer (NOp op [e] k) [] op e k
| out_down : forall op cs k i c p o e j, o_id op <> o_id prime -> nth_error cs i = Some c -> outer c p o e j -> outer (NOp op cs k) (i :: p) o e j.
Lemma outer_subtree : forall t p o e k, outer t p o e k -> subtree t p = Some (NOp o [e] k) /\ o_id o = o_id prime.
Proof. induction 1 as [|op cs k i c p o e j N C O [IH IH']]; [auto|]. cbn [subtree]. rewrite C. auto. Qed.

Definition unary (t : node) : Prop := forall q op cs k, subtree t q = Some (NOp op cs k) -> o_id op = o_id prime -> exists e, cs = [e].
Lemma unary_child : forall op cs k c, unary (NOp op cs k) -> In c cs -> unary c.
Proof. intros op cs k c U I q o ds j S. apply In_nth_error in I. destruct I as [i I]. apply (U (i :: q) o ds j). cbn [subtree]. rewrite I. exact S. Qed.
Lemma unary_op : forall op cs k, (o_id op = o_id prime -> exists e, cs = [e]) -> Forall unary cs -> unary (NOp op cs k).
Proof.
  intros op cs k H F [|i q] o ds j S E. { injection S as -> -> ->. auto. }
  cbn [subtree] in S. destruct (nth_error cs i) as [c|] eqn:N; [|discriminate S]. apply nth_error_In in N. rewrite Forall_forall in F. exact (F c N q o ds j S E).
Qed.

Lemma find_short : forall t, unary t ->
  (shorts prime t = 0 /\ find t = Ok None) \/
  (shorts prime t <> 0 /\ exists p o e k, outer t p o e k /\ find t = Ok (Some (p, set_mapped empty_matching 0 (mkNL 1 [e])))).
Proof.
  induction t as [v k|x i k|op cs k IH] using node_ind'; intros U; [left; split; reflexivity|left; split; reflexivity|].
  destruct (Nat.eq_dec (o_id op) (o_id prime)) as [E|E].
  { right. destruct (U [] op cs k eq_refl E) as [e ->]. split. { cbn [shorts]. rewrite E, Nat.eqb_refl. discriminate. }
    exists [], op, e, k. split; [constructor; auto|]. cbn [find_matching]. rewrite (short_here op e k E). reflexivity. }
  cbn [find_matching shorts]. rewrite short_not by (intros o ds j H; injection H as <- _ _; exact E). cbn [rbind].
  destruct (Nat.eqb_spec (o_id op) (o_id prime)) as [E'|_]; [contradiction|]. cbn [Nat.add].
  assert (K : forall l i, (forall j c, nth_error l j = Some c -> nth_error cs (i + j) = Some c) ->
    (list_sum (map (shorts prime) l) = 0 /\ (fix go (l : list node) (i : nat) : res (option (path * matching)) :=
         match l with
         | [] => Ok None
         | c :: l' =>
           rbind (find c) (fun r =>
           match r with
           | Some (p, m) => Ok (Some (i :: p, m))
           | None => go l' (S i)
           end)
         end) l i = Ok None) \/
    (list_sum (map (shorts prime) l) <> 0 /\ exists p o e j, outer (NOp op cs k) p o e j /\ (fix go (l : list node) (i : nat) : res (option (path * matching)) :=
         match l with
         | [] => Ok None
         | c :: l' =>
           rbind (find c) (fun r =>
           match r with
           | Some (p, m) => Ok (Some (i :: p, m))
           | None => go l' (S i)
           end)
         end) l i = Ok (Some (p, set_mapped empty_matching 0 (mkNL 1 [e]))))).
  { induction l as [|c l IHl]; intros i N. { left. split; reflexivity. }
    assert (Nc : nth_error cs i = Some c) by (rewrite <- (Nat.add_0_r i); apply N; reflexivity).
    pose proof (nth_error_In _ _ Nc) as Ic. rewrite Forall_forall in IH. cbn [map]. change (list_sum (shorts prime c :: map (shorts prime) l)) with (shorts prime c + list_sum (map (shorts prime) l)).
    destruct (IH c Ic (unary_child _ _ _ _ U Ic)) as [[Z F]|[Z (p & o & e & j & O & F)]].
    - rewrite Z, F. cbn [rbind Nat.add]. apply IHl. intros j d Ej. rewrite Nat.add_succ_l, <- Nat.add_succ_r. apply N. exact Ej.
    - right. split; [lia|]. exists (i :: p), o, e, j. split; [econstructor; eauto|]. rewrite F. reflexivity. }
  exact (K cs 0 (fun j c H => H)).
Qed.

(** ** One round *)
Definition settled (t : node) : Prop := forall q e, short_at prime t q e -> ~ two_variables e.
Lemma two_dec : forall e, List.length (firsts (var_names e)) <= 1 \/ two_variables e.
Proof.
  intros e. destruct (firsts (var_names e)) as [|y [|z l]] eqn:F; [left; simpl; lia|left; simpl; lia|]. right.
  pose proof (firsts_NoDup (var_names e)) as D. rewrite F in D. inversion D as [|? ? N D1]; subst.
  exists y, z. split; [apply firsts_In; rewrite F; left; auto|]. split; [apply firsts_In; rewrite F; right; left; auto|]. intros ->. apply N. left. auto.
Qed.
Lemma few_refers : forall e, List.length (firsts (var_names e)) <= 1 ->
  refers_to e (match firsts (var_names e) with v :: _ => v | [] => str "z" end) /\ ~ two_variables e.
Proof.
  intros e H. assert (A : forall y, In y (var_names e) -> In y (firsts (var_names e))) by (intros y I; apply firsts_In; auto).
  assert (B : forall y, In y (firsts (var_names e)) -> In y (var_names e)) by (intros y I; apply firsts_In; auto).
  destruct (firsts (var_names e)) as [|v [|v' l]] eqn:F; [| |simpl in H; lia].
  - assert (Z : var_names e = []). { destruct (var_names e) as [|y l]; auto. destruct (A y (or_introl eq_refl)). }
    split; [left; auto|]. intros (y & z & Y & _). rewrite Z in Y. destruct Y.
  - split; [right; split; [apply B; left; auto|intros y Y; destruct (A y Y) as [|[]]; auto]|].
    intros (y & z & Y & W & N). destruct (A y Y) as [|[]]; destruct (A z W) as [|[]]; congruence.
Qed.
Lemma counted : forall e, exists e' vs, list_variables e 2 = (e', vs, if 1 <? List.length (firsts (var_names e)) then 2 else List.length (firsts (var_names e))) /\
  (List.length (firsts (var_names e)) <= 1 -> vs = Some (firsts (var_names e)) /\ exists pos, e' = with_ids pos e).
Proof.
  intros e. unfold list_variables. destruct (Nat.le_gt_cases (List.length (firsts (var_names e))) 2) as [L|G].
  - rewrite (lv_top e 2 L). eexists _, _. split.
    + destruct (Nat.ltb_spec 1 (List.length (firsts (var_names e)))); [|reflexivity]. f_equal. lia.
    + eauto.
  - destruct (lv_top_none e 2 G) as [n' ->]. destruct (Nat.ltb_spec 1 (List.length (firsts (var_names e)))); [|lia]. exists n', None. split; [auto|lia].
Qed.
Lemma shorts_ids : forall pos t, shorts prime (with_ids pos t) = shorts prime t.
Proof.
  intros pos. induction t as [v k|x i k|op cs k IH] using node_ind'; auto. cbn [with_ids shorts]. f_equal. f_equal. rewrite map_map. apply map_ext_in. rewrite Forall_forall in IH. auto.
Qed.
Lemma subtree_ids : forall pos q t, subtree (with_ids pos t) q = option_map (with_ids pos) (subtree t q).
Proof.
  intros pos. induction q as [|i q IH]; intros t; [reflexivity|]. destruct t as [| |op cs k]; try reflexivity. cbn [with_ids subtree]. rewrite nth_error_map. destruct (nth_error cs i); cbn [option_map]; auto.
Qed.
Lemma unary_ids : forall pos t, unary t -> unary (with_ids pos t).
Proof.
  intros pos t U q op cs k S E. rewrite subtree_ids in S. destruct (subtree t q) as [[| |o ds j]|] eqn:T; try discriminate S. injection S as <- <- <-. destruct (U q o ds j T E) as [e ->]. exists (with_ids pos e). reflexivity.
Qed.
Lemma short_at_ids : forall pos t q e, short_at prime (with_ids pos t) q e -> exists e0, e = with_ids pos e0 /\ short_at prime t q e0.
Proof.
  intros pos t q e (op & k & S & E). rewrite subtree_ids in S. destruct (subtree t q) as [[| |o ds j]|] eqn:T; try discriminate S. injection S as <- D <-.
  destruct ds as [|d [|d' ds]]; try discriminate D. injection D as <-. exists d. split; [auto|]. exists o, j. auto.
Qed.
Lemma spelled_ids : forall pos t u, spelled prime deriv (with_ids pos t) u -> spelled prime deriv t u.
Proof.
  intros pos. induction t as [v k|x i k|op cs k IH] using node_ind'; intros u H; cbn [with_ids] in H; inversion H; subst; try constructor; auto.
  - match goal with F : Forall2 _ (map _ _) _ |- _ => revert F end. match goal with |- Forall2 _ _ ?d -> _ => generalize d end. clear - IH. induction cs as [|c cs IHc]; intros ds F; inversion F; subst; constructor; inversion IH; subst; auto.
  - destruct cs as [|c [|c' cs]]; try discriminate. match goal with E : [_] = map _ [c] |- _ => injection E as -> end.
    inversion IH; subst. constructor; auto. match goal with R : refers_to _ _ |- _ => unfold refers_to in *; rewrite !names_ids in R; exact R end.
Qed.
Lemma shorts_vset : forall cs i c d, nth_error cs i = Some c -> list_sum (map (shorts prime) (vset cs i d)) + shorts prime c = list_sum (map (shorts prime) cs) + shorts prime d.
Proof.
  induction cs as [|a cs IH]; intros [|i] c d N; try discriminate N; cbn [vset map].
  - injection N as ->. change (list_sum (?a :: ?l)) with (a + list_sum l). simpl. lia.
  - specialize (IH i c d N). simpl in *. lia.
Qed.
Lemma vset_In : forall A (cs : list A) i d x, In x (vset cs i d) -> x = d \/ In x cs.
Proof. induction cs as [|a cs IH]; intros [|i] d x I; simpl in I; auto; destruct I as [I|I]; auto; [right; right; auto|right; left; auto|]. destruct (IH _ _ _ I); auto. right; right; auto. Qed.
Lemma vset_nth : forall A (cs : list A) i d j x, nth_error (vset cs i d) j = Some x -> (j = i /\ x = d) \/ nth_error cs j = Some x.
Proof. induction cs as [|a cs IH]; intros [|i] d [|j] x N; simpl in *; auto; try (injection N as <-; auto). apply IH in N. destruct N as [[-> ->]|N]; auto. Qed.
Lemma vset_len : forall A (cs : list A) i d, List.length (vset cs i d) = List.length cs.
Proof. induction cs as [|a cs IH]; intros [|i] d; simpl; auto. Qed.

Section Round.
Hypothesis Different : o_id deriv <> o_id prime.
Variables (v : cstr) (vi vk : nat) (pos : cstr -> nat).
Notation new e k := (NOp deriv [with_ids pos e; NVar v vi vk] k).
Lemma round_shorts : forall t p o e k, outer t p o e k -> S (shorts prime (replace_at t p (new e k))) = shorts prime t.
Proof.
  induction 1 as [op e k E|op cs k i c p o e j N C O IH].
  - cbn [replace_at shorts]. rewrite E, Nat.eqb_refl. destruct (Nat.eqb_spec (o_id deriv) (o_id prime)); [contradiction|]. cbn [map]. rewrite shorts_ids. cbn [shorts]. unfold list_sum. simpl. lia.
  - cbn [replace_at]. rewrite C. cbn [shorts]. destruct (Nat.eqb_spec (o_id op) (o_id prime)); [contradiction|]. pose proof (shorts_vset cs i c (replace_at c p (new e j)) C). lia.
Qed.
Lemma round_unary : forall t p o e k, outer t p o e k -> unary t -> unary (replace_at t p (new e k)).
Proof.
  induction 1 as [op e k E|op cs k i c p o e j N C O IH]; intros U.
  - apply unary_op; [intros X; contradiction|]. constructor; [|constructor; [|constructor]].
    + apply unary_ids. apply (unary_child op [e] k); auto. left; auto.
    + intros [|? q] ? ? ? S; discriminate S.
  - cbn [replace_at]. rewrite C. apply unary_op; [intros X; contradiction|]. apply Forall_forall. intros d I. apply vset_In in I.
    destruct I as [->|I]; [apply IH; apply (unary_child _ _ _ _ U); apply (nth_error_In _ _ C)|exact (unary_child _ _ _ _ U I)].
Qed.
Lemma round_spelled : forall t p o e k u, outer t p o e k -> refers_to e v -> spelled prime deriv (replace_at t p (new e k)) u -> spelled prime deriv t u.
Proof.
  intros t p o e k u O R. revert u. induction O as [op e k E|op cs k i c p o e j N C O IH]; intros u H.
  - cbn [replace_at] in H. inversion H; subst. match goal with F : Forall2 _ _ _ |- _ => inversion F; subst; clear F end.
    match goal with F : Forall2 _ [_] _ |- _ => inversion F; subst; clear F end. match goal with F : Forall2 _ [] _ |- _ => inversion F; subst; clear F end.
    match goal with F : spelled _ _ (NVar _ _ _) _ |- _ => inversion F; subst; clear F end.
    apply sp_prime; auto. eapply spelled_ids; eauto.
  - cbn [replace_at] in H. rewrite C in H. inversion H; subst; [|contradiction]. apply sp_op; auto.
    match goal with F : Forall2 _ _ _ |- _ => revert F end. match goal with |- Forall2 _ _ ?d -> _ => generalize d end. clear - C IH R. revert i C.
    induction cs as [|a cs IHc]; intros [|i] C ds F; try discriminate C; cbn [vset] in F; inversion F; subst.
    + injection C as ->. constructor; auto.
    + constructor; auto. eapply IHc; eauto.
Qed.
(** No short form is changed in what it is about, and none is forgotten. *)
Lemma round_settled : forall t p o e k, outer t p o e k -> settled t -> settled (replace_at t p (new e k)).
Proof.
  induction 1 as [op e k E|op cs k i c p o e j N C O IH]; intros S q b B.
  - destruct B as (o & j & T & P). destruct q as [|[|[|q0]] q]; cbn [replace_at subtree nth_error] in T.
    + injection T as <- _ _. contradiction.
    + assert (B : short_at prime (with_ids pos e) q b) by (exists o, j; auto). apply short_at_ids in B. destruct B as (b0 & -> & (o0 & j0 & T0 & P0)).
      unfold two_variables. rewrite names_ids. apply (S (0 :: q)). exists o0, j0. auto.
    + destruct q; discriminate T.
    + destruct q0; discriminate T.
  - destruct B as (o' & j' & T & P). cbn [replace_at] in T. rewrite C in T. destruct q as [|i' q]; cbn [subtree] in T. { injection T as <- _ _. contradiction. }
    destruct (nth_error (vset cs i (replace_at c p (new e j))) i') as [d|] eqn:D; [|discriminate T]. apply vset_nth in D. destruct D as [[-> ->]|D].
    + apply (IH (fun q0 b0 B0 => S (i :: q0) b0 ltac:(destruct B0 as (x & y & X & Y); exists x, y; cbn [subtree]; rewrite C; auto)) q). exists o', j'. auto.
    + apply (S (i' :: q)). exists o', j'. cbn [subtree]. rewrite D. auto.
Qed.
Lemma round_unsettled : forall t p o e k, outer t p o e k -> ~ two_variables e -> settled (replace_at t p (new e k)) -> settled t.
Proof.
  induction 1 as [op e k E|op cs k i c p o e j N C O IH]; intros T S q b (o' & j' & B & P).
  - destruct q as [|[|q0] q]; cbn [subtree nth_error] in B.
    + injection B as _ <- _. exact T.
    + intros W. apply (S (0 :: q) (with_ids pos b)); [|unfold two_variables in *; rewrite names_ids; exact W].
      exists o', j'. split; [|auto]. cbn [replace_at subtree nth_error]. rewrite subtree_ids, B. reflexivity.
    + destruct q0; discriminate B.
  - destruct q as [|i' q]; cbn [subtree] in B. { injection B as <- _ _. contradiction. }
    destruct (nth_error cs i') as [d|] eqn:D; [|discriminate B]. cbn [replace_at] in S. rewrite C in S.
    destruct (Nat.eq_dec i' i) as [->|Ne].
    + rewrite C in D. injection D as <-. refine (IH T _ q b _); [|exists o', j'; auto]. intros q0 b0 (x & y & X & Y). apply (S (i :: q0)). exists x, y. split; [|auto]. cbn [subtree].
      replace (nth_error (vset cs i (replace_at c p (new e j))) i) with (Some (replace_at c p (new e j))); [exact X|]. clear - C. revert i C. induction cs as [|a cs IHc]; intros [|i] C; try discriminate C; simpl; auto.
    + apply (S (i' :: q)). exists o', j'. split; [|auto]. cbn [subtree].
      replace (nth_error (vset cs i (replace_at c p (new e j))) i') with (Some d); [exact B|]. clear - D Ne. revert i i' D Ne. induction cs as [|a cs IHc]; intros [|i] [|i'] D Ne; try discriminate D; simpl; auto; lia.
Qed.
End Round.
Lemma none_settled : forall t, shorts prime t = 0 -> unary t -> settled t /\ spelled prime deriv t t.
Proof.
  induction t as [v k|x i k|op cs k IH] using node_ind'; intros Z U.
  - split; [intros [|? q] e (o & j & S & _); discriminate S|constructor].
  - split; [intros [|? q] e (o & j & S & _); discriminate S|constructor].
  - cbn [shorts] in Z. destruct (Nat.eqb_spec (o_id op) (o_id prime)) as [|N]; [discriminate Z|]. cbn [Nat.add] in Z.
    assert (A : forall c, In c cs -> settled c /\ spelled prime deriv c c).
    { intros c I. rewrite Forall_forall in IH. apply IH; auto; [|exact (unary_child _ _ _ _ U I)].
      assert (K : shorts prime c <= list_sum (map (shorts prime) cs)); [|lia]. clear - I. induction cs as [|a cs IHc]; [destruct I|]. simpl. destruct I as [->|I]; [lia|]. specialize (IHc I). lia. }
    split.
    + intros [|i q] e (o & j & S & P); cbn [subtree] in S. { injection S as <- _ _. contradiction. }
      destruct (nth_error cs i) as [c|] eqn:Nc; [|discriminate S]. apply nth_error_In in Nc. apply (proj1 (A c Nc) q). exists o, j. auto.
    + constructor; auto. clear - A. induction cs as [|c cs IHc]; constructor; [apply A; left; auto|]. apply IHc. intros d I. apply A. right. auto.
Qed.
End Short.

(** ** The loop *)
Section Loop.
Variables (prime deriv : operator) (pk pj : nat) (s : simp) (a0 : node) (zk aj : nat).
Hypothesis Different : o_id deriv <> o_id prime.
Hypothesis Before : s_before s = Some (short_pattern prime pk pj).
Hypothesis After : s_after s = Some (NOp deriv [a0; NVar (str "z") 0 zk] aj).
Lemma loop_round : forall t, unary prime t -> shorts prime t <> 0 ->
  (exists p e t', short_at prime t p e /\ two_variables e /\ (forall k w, shorthand_loop (S k) s w t = oret w (t', Some (LISTENERERR_MALFORMED_DERIV_A, p))) /\
     exists e', short_at prime t' p e' /\ two_variables e') \/
  (exists p o e j v vk pos, outer prime t p o e j /\ refers_to e v /\ ~ two_variables e /\
     forall k w, shorthand_loop (S k) s w t = shorthand_loop k s w (replace_at t p (NOp deriv [with_ids pos e; NVar v 0 vk] j))).
Proof.
  intros t U Z. destruct (find_short prime (fun _ => Ub) pk pj t U) as [[Z' _]|[_ (p & o & e & j & O & F)]]; [contradiction|].
  destruct (outer_subtree _ _ _ _ _ _ O) as [T P].
  assert (V : var_names (NOp o [e] j) = var_names e) by (cbn [var_names flat_map]; apply app_nil_r).
  destruct (counted (NOp o [e] j)) as (m' & vs & C & N). rewrite V in N, C.
  assert (Step : forall k w, shorthand_loop (S k) s w t = if 1 <? (if 1 <? List.length (firsts (var_names e)) then 2 else List.length (firsts (var_names e)))
    then oret w (replace_at t p m', Some (LISTENERERR_MALFORMED_DERIV_A, p))
    else shorthand_loop k s w (replace_at t p (NOp deriv [tree_copy (fst (fst (list_variables e 2))); match vs with Some (v :: _) => NVar v 0 0 | _ => NVar (str "z") 0 zk end] j))).
  { intros k w. cbn [shorthand_loop]. rewrite Before, F. cbn [lift]. rewrite (deref_subtree _ _ _ T). cbn [lift]. rewrite C, After. reflexivity. }
  destruct (two_dec e) as [F1|W].
  - right. destruct (Nat.ltb_spec 1 (List.length (firsts (var_names e)))) as [|_]; [lia|]. replace (1 <? List.length (firsts (var_names e))) with false in Step by (symmetry; apply Nat.ltb_ge; exact F1).
    destruct (N F1) as [-> _].
    destruct (counted e) as (e' & es & Ce & Ne). rewrite Ce in Step. cbn [fst] in Step. destruct (Ne F1) as [_ [pos ->]]. rewrite tree_copy_id in Step.
    destruct (few_refers e F1) as [R NT].
    exists p, o, e, j, (match firsts (var_names e) with v :: _ => v | [] => str "z" end), (match firsts (var_names e) with v :: _ => 0 | [] => zk end), pos.
    split; [auto|]. split; [auto|]. split; [auto|]. intros k w. rewrite Step. destruct (firsts (var_names e)); reflexivity.
  - left. assert (L : 1 < List.length (firsts (var_names e))).
    { destruct W as (y & z & Y & X & D). apply firsts_In in Y. apply firsts_In in X. destruct (firsts (var_names e)) as [|a [|b l]]; simpl; [destruct Y| |lia]. destruct Y as [<-|[]]; destruct X as [<-|[]]; congruence. }
    destruct (Nat.ltb_spec 1 (List.length (firsts (var_names e)))) as [_|]; [|lia]. cbn [Nat.ltb Nat.leb].
    exists p, e, (replace_at t p m'). split; [exists o, j; auto|]. split; [exact W|]. split; [exact Step|].
    assert (M : exists e', m' = NOp o [e'] j /\ var_names e' = var_names e).
    { clear - C. unfold list_variables in C. rewrite lv_op in C. rewrite lv_cons in C.
      assert (Nm : forall n f, var_names (fst (list_variables_rec n 2 f)) = var_names n).
      { clear. induction n as [v k|x i k|op cs k IH] using node_ind'; intros [f|]; try (rewrite lv_none; reflexivity); try reflexivity.
        - cbn [list_variables_rec]. destruct (index_of x f); [reflexivity|]. destruct (_ <? _); reflexivity.
        - rewrite lv_op.
          assert (K : forall l f, Forall (fun n => forall f, var_names (fst (list_variables_rec n 2 f)) = var_names n) l -> flat_map var_names (fst (lv_list l 2 f)) = flat_map var_names l).
          { induction l as [|c l IHl]; intros g F; [reflexivity|]. inversion F as [|? ? Hc Hl]; subst. rewrite lv_cons. specialize (Hc g). destruct (list_variables_rec c 2 g) as [c' f1]. cbn [fst] in Hc.
            specialize (IHl f1 Hl). destruct (lv_list l 2 f1) as [l' f2]. cbn [fst flat_map] in *. congruence. }
          specialize (K cs (Some f) IH). destruct (lv_list cs 2 (Some f)) as [cs' r]. exact K. }
      specialize (Nm e (Some [])). destruct (list_variables_rec e 2 (Some [])) as [c' f1]. cbn [fst] in Nm.
      replace (lv_list [] 2 f1) with (@nil node, f1) in C by (destruct f1; reflexivity).
      destruct f1 as [f|]; [injection C as <- _ _|injection C as <- _]; eauto. }
    destruct M as (e' & -> & Ve). exists e'. split; [|unfold two_variables in *; rewrite Ve; exact W]. exists o, j. split; [|exact P].
    clear - T. revert t T. induction p as [|i p IH]; intros t T. { reflexivity. }
    destruct t as [| |op cs k]; try discriminate T. cbn [subtree] in T. destruct (nth_error cs i) as [c|] eqn:Nc; [|discriminate T]. cbn [replace_at]. rewrite Nc. cbn [subtree].
    replace (nth_error (vset cs i (replace_at c p (NOp o [e'] j))) i) with (Some (replace_at c p (NOp o [e'] j))); [auto|]. clear - Nc. revert i Nc. induction cs as [|a cs IHc]; intros [|i] C; try discriminate C; simpl; auto.
Qed.
Lemma loop_none : forall k w t, unary prime t -> shorts prime t = 0 -> shorthand_loop (S k) s w t = oret w (t, None).
Proof.
  intros k w t U Z. destruct (find_short prime (fun _ => Ub) pk pj t U) as [[_ F]|[Z' _]]; [|contradiction]. cbn [shorthand_loop]. rewrite Before, F. reflexivity.
Qed.
Lemma loop_settled : forall n t, shorts prime t = n -> unary prime t -> settled prime t ->
  exists u, spelled prime deriv t u /\ forall k w, n < k -> shorthand_loop k s w t = oret w (u, None).
Proof.
  induction n as [|n IH]; intros t N U S.
  - exists t. split; [apply none_settled; auto|]. intros [|k] w L; [lia|]. apply loop_none; auto.
  - destruct (loop_round t U) as [(p & e & t' & B & W & _)|(p & o & e & j & v & vk & pos & O & R & NT & E)]; [congruence|destruct (S p e B W)|].
    pose proof (round_shorts prime deriv Different v 0 vk pos _ _ _ _ _ O) as RS.
    destruct (IH (replace_at t p (NOp deriv [with_ids pos e; NVar v 0 vk] j))) as (u & Sp & L).
    + congruence.
    + eapply round_unary; eauto.
    + eapply round_settled; eauto.
    + exists u. split; [eapply round_spelled; eauto|]. intros [|k] w H; [lia|]. rewrite E. apply L. lia.
Qed.
Lemma loop_unsettled : forall n t, shorts prime t = n -> unary prime t -> ~ settled prime t ->
  exists t' p e, short_at prime t' p e /\ two_variables e /\ forall k w, n < k -> shorthand_loop k s w t = oret w (t', Some (LISTENERERR_MALFORMED_DERIV_A, p)).
Proof.
  induction n as [|n IH]; intros t N U S. { destruct S. apply (none_settled prime deriv); auto. }
  destruct (loop_round t U) as [(p & e & t' & _ & _ & E & e' & B & W)|(p & o & e & j & v & vk & pos & O & R & NT & E)]; [congruence| |].
  - exists t', p, e'. split; [exact B|]. split; [exact W|]. intros [|k] w H; [lia|]. apply E.
  - pose proof (round_shorts prime deriv Different v 0 vk pos _ _ _ _ _ O) as RS.
    destruct (IH (replace_at t p (NOp deriv [with_ids pos e; NVar v 0 vk] j))) as (t' & q & e' & B & W & L).
    + congruence.
    + eapply round_unary; eauto.
    + intros X. apply S. eapply round_unsettled; eauto.
    + exists t', q, e'. split; [exact B|]. split; [exact W|]. intros [|k] w H; [lia|]. rewrite E. apply L. lia.
Qed.
End Loop.

(** ** The pattern of derivatives with respect to something that is not a variable *)
Section Malformed.
Variables (deriv ne ty va : operator) (ck : node -> res bool) (k1 k2 k3 k4 k5 k6 k7 : nat).
Definition malformed_pattern : pattern :=
  mkPat (NOp deriv [NVar (str "x") 0 k1; NVar (str "y") 1 k2] k3)
    ([] :: [NOp ne [NOp ty [NVar (str "y") 1 k4] k5; NOp va [] k6] k7] :: repeat [] 8).
Variable P : node -> Prop.
Definition varb (t : node) : bool := match t with NVar _ _ _ => true | _ => false end.
Hypothesis Checks : forall b, P b -> ck (NOp ne [NOp ty [b] k5; NOp va [] k6] k7) = Ok (negb (varb b)).
Notation find := (find_matching ck malformed_pattern).

Lemma malformed_here : forall op a b k, o_id op = o_id deriv -> P b ->
  get_matching ck malformed_pattern (NOp op [a; b] k) = Ok (if varb b then None else Some (set_mapped (m_one a b) 1 (mkNL 1 [b]))).
Proof.
  intros op a b k E Pb. unfold get_matching, get_all_matchings. cbn [extend_matching malformed_pattern pt_tree nl_size nl_nodes N.eqb Pos.eqb vget nth_error rbind]. rewrite E, Nat.eqb_refl. cbn [map].
  rewrite (mpl_two _ _ k1 k2 a b (if varb b then [] else [set_mapped (m_one a b) 1 (mkNL 1 [b])])).
  - destruct (varb b); reflexivity.
  - reflexivity.
  - cbn [extend_matching m_one mapped set_mapped empty_matching repeat MAX_MAPPED_VARS nth_error vget rbind malformed_pattern pt_constraints nth].
    match goal with |- context [check_constraints ?f ?l ?m] => assert (C : check_constraints f l m = Ok (negb (varb b))) end.
    { cbn [check_constraints]. rewrite tree_copy_id.
      match goal with |- context [transform_by_matching ?m ?c] => change (transform_by_matching m c) with (Ok (NOp ne [NOp ty [tree_copy b] k5; NOp va [] k6] k7)) end.
      cbn [rbind]. rewrite tree_copy_id, (Checks b Pb). destruct (varb b); reflexivity. }
    vm_compute mapped. rewrite C. destruct (varb b); reflexivity.
Qed.
Lemma malformed_not : forall t, (forall op cs k, t = NOp op cs k -> o_id op <> o_id deriv) -> get_matching ck malformed_pattern t = Ok None.
Proof.
  intros [v k|x i k|op cs k] H; try reflexivity. unfold get_matching, get_all_matchings. cbn [extend_matching malformed_pattern pt_tree nl_size nl_nodes N.eqb Pos.eqb vget nth_error rbind].
  specialize (H op cs k eq_refl). destruct (Nat.eqb_spec (o_id deriv) (o_id op)) as [E|_]; [symmetry in E; contradiction|reflexivity].
Qed.
Definition binary (t : node) : Prop := forall q op cs k, subtree t q = Some (NOp op cs k) -> o_id op = o_id deriv -> exists e b, cs = [e; b].
Definition everywhere (t : node) : Prop := forall q s, subtree t q = Some s -> P s.
Definition wellformed (t : node) : Prop := forall q e b, long_at deriv t q e b -> is_variable b.
Lemma below : forall op cs k c i (Q : path -> node -> Prop), nth_error cs i = Some c -> (forall q s, subtree (NOp op cs k) q = Some s -> Q q s) -> forall q s, subtree c q = Some s -> Q (i :: q) s.
Proof. intros op cs k c i Q N H q s S. apply H. cbn [subtree]. rewrite N. exact S. Qed.
Lemma find_malformed : forall t, binary t -> everywhere t ->
  (find t = Ok None /\ wellformed t) \/
  (exists p m e b, find t = Ok (Some (p, m)) /\ long_at deriv t p e b /\ ~ is_variable b).
Proof.
  induction t as [v k|x i k|op cs k IH] using node_ind'; intros B A;
    [left; split; [reflexivity|intros [|? q] e b (o & j & S & _); discriminate S]|left; split; [reflexivity|intros [|? q] e b (o & j & S & _); discriminate S]|].
  assert (Top : (exists e b, cs = [e; b] /\ o_id op = o_id deriv /\ ~ is_variable b) \/
    (get_matching ck malformed_pattern (NOp op cs k) = Ok None /\ forall e b, cs = [e; b] -> o_id op = o_id deriv -> is_variable b)).
  { destruct (Nat.eq_dec (o_id op) (o_id deriv)) as [E|E].
    - destruct (B [] op cs k eq_refl E) as (e & b & ->). pose proof (malformed_here op e b k E (A [1] b eq_refl)) as M. destruct b as [v j|x i j|o ds j]; cbn [varb] in M.
      + left. exists e, (NConst v j). repeat split; auto. intros (? & ? & ? & X). discriminate X.
      + right. split; [exact M|]. intros e' b' X _. injection X as _ <-. exists x, i, j. reflexivity.
      + left. exists e, (NOp o ds j). repeat split; auto. intros (? & ? & ? & X). discriminate X.
    - right. split; [|intros; contradiction]. apply malformed_not. intros o ds j H. injection H as <- _ _. exact E. }
  destruct Top as [(e & b & -> & E & V)|[G Top]].
  { right. exists [], (set_mapped (m_one e b) 1 (mkNL 1 [b])), e, b. split; [|split; [exists op, k; auto|exact V]]. cbn [find_matching]. rewrite (malformed_here op e b k E (A [1] b eq_refl)).
    destruct b; try reflexivity. destruct V. do 3 eexists. reflexivity. }
  cbn [find_matching]. rewrite G. cbn [rbind].
  assert (K : forall l i, (forall j c, nth_error l j = Some c -> nth_error cs (i + j) = Some c) ->
    ((fix go (l : list node) (i : nat) : res (option (path * matching)) :=
         match l with
         | [] => Ok None
         | c :: l' =>
           rbind (find c) (fun r =>
           match r with
           | Some (p, m) => Ok (Some (i :: p, m))
           | None => go l' (S i)
           end)
         end) l i = Ok None /\ Forall wellformed l) \/
    (exists p m e b, (fix go (l : list node) (i : nat) : res (option (path * matching)) :=
         match l with
         | [] => Ok None
         | c :: l' =>
           rbind (find c) (fun r =>
           match r with
           | Some (p, m) => Ok (Some (i :: p, m))
           | None => go l' (S i)
           end)
         end) l i = Ok (Some (p, m)) /\ long_at deriv (NOp op cs k) p e b /\ ~ is_variable b)).
  { induction l as [|c l IHl]; intros i N. { left. split; [reflexivity|constructor]. }
    assert (Nc : nth_error cs i = Some c) by (rewrite <- (Nat.add_0_r i); apply N; reflexivity).
    pose proof (nth_error_In _ _ Nc) as Ic. rewrite Forall_forall in IH.
    assert (Bc : binary c) by (intros q o ds j S; apply (B (i :: q) o ds j); cbn [subtree]; rewrite Nc; exact S).
    assert (Ac : everywhere c) by (intros q s S; apply (A (i :: q) s); cbn [subtree]; rewrite Nc; exact S).
    destruct (IH c Ic Bc Ac) as [[F W]|(p & m & e & b & F & (o & j & S & E) & V)].
    - rewrite F. cbn [rbind]. destruct (IHl (S i)) as [[X Y]|X].
      + intros j d Ej. rewrite Nat.add_succ_l, <- Nat.add_succ_r. apply N. exact Ej.
      + left. split; [exact X|constructor; auto].
      + right. exact X.
    - right. exists (i :: p), m, e, b. rewrite F. split; [reflexivity|]. split; [|exact V]. exists o, j. cbn [subtree]. rewrite Nc. auto. }
  destruct (K cs 0 (fun j c H => H)) as [[X W]|X]; [left; split; [exact X|]|right; exact X].
  intros [|i q] e b (o & j & S & E); cbn [subtree] in S. { injection S as <- -> <-. eapply Top; eauto. }
  destruct (nth_error cs i) as [c|] eqn:Nc; [|discriminate S]. apply nth_error_In in Nc. rewrite Forall_forall in W. apply (W c Nc q e b). exists o, j. auto.
Qed.
End Malformed.

(** ** Spelled out expressions *)
Section Spelled.
Variables prime deriv : operator.
Hypothesis Different : o_id deriv <> o_id prime.
Lemma spelled_shorts : forall t u, spelled prime deriv t u -> shorts prime u = 0.
Proof.
  induction t as [v k|x i k|op cs k IH] using node_ind'; intros u H; inversion H; subst; try reflexivity.
  - cbn [shorts]. destruct (Nat.eqb_spec (o_id op) (o_id prime)); [contradiction|]. cbn [Nat.add]. match goal with F : Forall2 _ _ _ |- _ => revert F end.
    match goal with |- Forall2 _ _ ?d -> _ => generalize d end. clear - IH. induction cs as [|c cs IHc]; intros ds F; inversion F; subst; [reflexivity|]. inversion IH; subst. cbn [map].
    change (shorts prime y + list_sum (map (shorts prime) l') = 0). rewrite (IHc H4 _ H3). rewrite (H2 _ H1). reflexivity.
  - inversion IH; subst. cbn [shorts map]. destruct (Nat.eqb_spec (o_id deriv) (o_id prime)); [contradiction|]. match goal with K : forall u, spelled _ _ e u -> _, X : spelled _ _ e _ |- _ => rewrite (K _ X) end. reflexivity.
Qed.
Lemma arities_op : forall op cs k, arities prime deriv (NOp op cs k) <->
  (o_id op = o_id prime -> exists e, cs = [e]) /\ (o_id op = o_id deriv -> exists e b, cs = [e; b]) /\ Forall (arities prime deriv) cs.
Proof.
  intros op cs k. split.
  - intros A. split; [apply (A [] op cs k eq_refl)|]. split; [apply (A [] op cs k eq_refl)|]. apply Forall_forall. intros c I q o ds j S. apply In_nth_error in I. destruct I as [i I]. apply (A (i :: q) o ds j). cbn [subtree]. rewrite I. exact S.
  - intros (P & D & F) [|i q] o ds j S. { injection S as <- <- <-. auto. } cbn [subtree] in S. destruct (nth_error cs i) as [c|] eqn:N; [|discriminate S]. apply nth_error_In in N. rewrite Forall_forall in F. exact (F c N q o ds j S).
Qed.
Lemma arities_var : forall x i k, arities prime deriv (NVar x i k).
Proof. intros x i k [|? q] o ds j S; discriminate S. Qed.
Lemma spelled_arities : forall t u, spelled prime deriv t u -> arities prime deriv t -> arities prime deriv u.
Proof.
  induction t as [v k|x i k|op cs k IH] using node_ind'; intros u H A; inversion H; subst; auto using arities_var.
  - apply arities_op in A. destruct A as (P & D & F). apply arities_op. split; [intros; contradiction|].
    match goal with F2 : Forall2 _ cs ds |- _ => assert (E : List.length cs = List.length ds) by (clear - F2; induction F2; simpl; auto) end. split.
    + intros X. destruct (D X) as (e & b & ->). destruct ds as [|? [|? [|? ?]]]; try discriminate E. eauto.
    + match goal with F2 : Forall2 _ cs ds |- _ => clear - F2 IH F; induction F2; constructor; inversion IH; inversion F; subst; auto end.
  - inversion IH; subst. apply arities_op in A. destruct A as (_ & _ & F). inversion F; subst. apply arities_op. split; [intros; contradiction|]. split; [intros _; eauto|]. constructor; [auto|]. constructor; [apply arities_var|constructor].
Qed.
Lemma spelled_calculator : forall t u, o_id deriv < 58 /\ o_addr deriv < 58 -> spelled prime deriv t u -> of_calculator t -> of_calculator u.
Proof.
  intros t u D. revert u. induction t as [v k|x i k|op cs k IH] using node_ind'; intros u H C; inversion H; subst; auto.
  - intros o I. cbn [operators_of] in I. destruct I as [<-|I]; [apply C; left; auto|]. apply in_flat_map in I. destruct I as (d & Id & I).
    assert (X : exists c, In c cs /\ spelled prime deriv c d).
    { match goal with F2 : Forall2 _ cs ds |- _ => clear - F2 Id; induction F2 as [|c0 d0 cs0 ds0 S0 F0 IH0] end; [destruct Id|]. destruct Id as [->|Id]; [exists c0; split; [left; reflexivity|auto]|]. destruct (IH0 Id) as (c & ? & ?). exists c. split; [right|]; auto. }
    destruct X as (c & Ic & S). rewrite Forall_forall in IH. apply (IH c Ic d S); [|exact I]. intros p J. apply C. right. apply in_flat_map. eauto.
  - inversion IH; subst. intros o I. cbn [operators_of] in I. destruct I as [<-|I]; [exact D|]. apply in_flat_map in I. destruct I as (d & [<-|[<-|[]]] & I); [|destruct I].
    match goal with K : forall u, spelled _ _ e u -> _, X : spelled _ _ e _ |- _ => apply (K _ X); [|exact I] end. intros p J. apply C. right. apply in_flat_map. exists e. split; [left; auto|auto].
Qed.
End Spelled.
