(** Patterns and rules as built by get_pattern and get_rule. *)
From Coq Require Import List Ascii String NArith ZArith Bool Lia Arith.
From Verif Require Import M_Base M_Tree M_TreeUtil M_Match S_Tree S_Match L_Trie L_Tree L_Match L_MatchSem.
Import ListNotations.
Open Scope nat_scope.
Open Scope res_scope.

Lemma map_flat : forall A B C (f : A -> B) (g : B -> list C) l, flat_map g (map f l) = flat_map (fun x => g (f x)) l.
Proof. induction l; simpl; auto. rewrite IHl. auto. Qed.
Lemma flat_map_in_ext : forall A B (f g : A -> list B) l, (forall x, In x l -> f x = g x) -> flat_map f l = flat_map g l.
Proof. induction l; simpl; intros H; auto. rewrite H by (left; auto). f_equal. apply IHl. intros. apply H. right. auto. Qed.
Lemma inst_ids : forall s f p, inst s (with_ids f p) = inst s p.
Proof.
  intros s f. induction p as [v t|x i t|op cs t IH] using node_ind'; simpl; auto. do 2 f_equal. rewrite map_flat. apply flat_map_in_ext. rewrite Forall_forall in IH. auto.
Qed.
Lemma names_ids : forall f p, var_names (with_ids f p) = var_names p.
Proof.
  intros f. induction p as [v t|x i t|op cs t IH] using node_ind'; simpl; auto. rewrite map_flat. apply flat_map_in_ext. rewrite Forall_forall in IH. auto.
Qed.
Lemma inst_copy : forall s vs p, inst s (tree_copy_IDs p vs) = inst s p.
Proof.
  intros s vs. induction p as [v t|x i t|op cs t IH] using node_ind'; simpl; auto.
  - destruct (index_of x vs); auto.
  - do 2 f_equal. rewrite map_flat. apply flat_map_in_ext. rewrite Forall_forall in IH. auto.
Qed.
Lemma names_copy : forall vs p, var_names (tree_copy_IDs p vs) = var_names p.
Proof.
  intros vs. induction p as [v t|x i t|op cs t IH] using node_ind'; simpl; auto.
  - destruct (index_of x vs); auto.
  - rewrite map_flat. apply flat_map_in_ext. rewrite Forall_forall in IH. auto.
Qed.
Lemma named_ids : forall W p, incl (var_names p) W -> named W (with_ids (pos_in (firsts W)) p).
Proof.
  intros W. induction p as [v t|x i t|op cs t IH] using node_ind'; intros I.
  - exact Logic.I.
  - simpl. split; auto. apply I. left. auto.
  - cbn [with_ids]. apply named_op. apply Forall_forall. intros c Ic. apply in_map_iff in Ic. destruct Ic as (d & <- & Id).
    rewrite Forall_forall in IH. apply IH; auto. intros y Iy. apply I. simpl. apply in_flat_map. eauto.
Qed.
Lemma gv_zero : forall c x, (fst (get_variable_nodes c x 0 0) =? 0) = true <-> ~ In x (var_names c).
Proof.
  intros c x. rewrite gv_spec. cbn [fst]. rewrite Nat.eqb_eq.
  assert (E : List.length (places x c) = count_occ name_dec (var_names c) x).
  { induction c as [v t|y i t|op cs t IH] using node_ind'; simpl; auto.
    - destruct (name_dec x y), (name_dec y x); simpl; congruence.
    - fold (places_list x cs 0). generalize 0. induction IH as [|c cs Hc IH IHl]; intros k; auto. cbn [places_list flat_map]. fold (places_list x cs (S k)).
      rewrite app_length, count_occ_app, IHl. f_equal. unfold under. rewrite map_length. exact Hc. }
  rewrite E. symmetry. apply count_occ_not_In.
Qed.
Lemma trigger_spec : forall c vars j mx, mx <= j ->
  (forall k x, nth_error vars k = Some x -> In x (var_names c) -> j + k <= trigger c vars j mx) /\
  mx <= trigger c vars j mx /\
  (trigger c vars j mx = mx \/ exists k x, nth_error vars k = Some x /\ In x (var_names c) /\ trigger c vars j mx = j + k).
Proof.
  intros c. induction vars as [|y vars IH]; intros j mx L; cbn [trigger].
  - split; [intros [|k] x E; discriminate E|]. auto.
  - destruct (fst (get_variable_nodes c y 0 0) =? 0) eqn:G.
    + apply gv_zero in G. destruct (IH (S j) mx ltac:(lia)) as (A & B & C). split; [|split; auto].
      * intros [|k] x E I; simpl in E. { injection E as ->. contradiction. } specialize (A k x E I). lia.
      * destruct C as [C|(k & x & E & I & C)]; auto. right. exists (S k), x. split; auto. split; auto. lia.
    + assert (I : In y (var_names c)). { destruct (in_dec name_dec y (var_names c)); auto. exfalso. apply gv_zero in n. congruence. }
      destruct (IH (S j) j ltac:(lia)) as (A & B & C). split; [|split].
      * intros [|k] x E J; simpl in E. { lia. } specialize (A k x E J). lia.
      * lia.
      * right. destruct C as [C|(k & x & E & J & C)]. { exists 0, y. rewrite C. repeat split; auto. } exists (S k), x. split; auto. split; auto. lia.
Qed.
Lemma vset_nth2 : forall A (l : list A) i x j d, i < List.length l -> nth j (vset l i x) d = if j =? i then x else nth j l d.
Proof. induction l as [|y l IH]; intros [|i] x [|j] d H; simpl in *; try lia; auto. apply IH. lia. Qed.
Lemma add_spec : forall vars cs acc out, add_constraints vars cs acc = Some out -> List.length vars <= List.length acc -> 0 < List.length acc ->
  List.length out = List.length acc /\
  (forall id, nth id out [] = nth id acc [] ++ filter (fun c => trigger c vars 0 0 =? id) (map (fun c => tree_copy_IDs c vars) cs)) .
Proof.
  intros vars. induction cs as [|c cs IH]; intros acc out E L P; cbn [add_constraints] in E.
  - injection E as <-. split; auto. intros id. simpl. rewrite app_nil_r. auto.
  - set (c' := tree_copy_IDs c vars) in *. set (k := trigger c' vars 0 0) in *.
    destruct (List.length (nth k acc []) =? MATCHING_MAX_CONSTRAINTS); [discriminate E|].
    assert (Lk : k < List.length acc).
    { destruct (trigger_spec c' vars 0 0 (le_n 0)) as (_ & _ & [C|(j & x & F & _ & C)]); fold k in C; [lia|].
      assert (j < List.length vars) by (apply nth_error_Some; congruence). lia. }
    destruct (IH _ _ E) as [A B]. { rewrite vset_length. auto. } { rewrite vset_length. auto. }
    rewrite vset_length in A. split; auto. intros id. rewrite B, vset_nth2 by auto. cbn [map filter]. fold c'. fold k.
    destruct (Nat.eqb_spec id k) as [->|N].
    + rewrite Nat.eqb_refl, <- app_assoc. reflexivity.
    + destruct (Nat.eqb_spec k id); [congruence|]. reflexivity.
Qed.
Lemma get_pattern_spec : forall p cs pat, get_pattern p cs = PatOk pat ->
  let vs := firsts (var_names p) in
  List.length vs <= MAX_MAPPED_VARS /\ pt_tree pat = with_ids (pos_in vs) p /\
  (forall id c, In c (nth id (pt_constraints pat) []) <-> exists d, In d cs /\ c = tree_copy_IDs d vs /\ id = trigger c vs 0 0).
Proof.
  intros p cs pat E vs. unfold get_pattern, list_variables in E.
  pose proof (lv_spec MAX_MAPPED_VARS p [] (Nat.le_0_l _)) as H. cbn [app] in H. cbn zeta in H. rewrite news_firsts in H. fold vs in H.
  destruct (Nat.leb_spec (List.length vs) MAX_MAPPED_VARS) as [L|L].
  - rewrite H in E. destruct (add_constraints vs cs (repeat [] MAX_MAPPED_VARS)) as [acc|] eqn:A; [|discriminate E]. injection E as <-. cbn [pt_tree pt_constraints].
    split; auto. split; auto. apply add_spec in A; [|rewrite repeat_length; auto|rewrite repeat_length; unfold MAX_MAPPED_VARS; lia].
    destruct A as [_ A]. intros id c. rewrite A.
    assert (R : nth id (repeat (@nil node) MAX_MAPPED_VARS) [] = []). { apply nth_repeat. }
    rewrite R. simpl. rewrite filter_In, in_map_iff, Nat.eqb_eq. split.
    + intros [(d & <- & Id) Q]. exists d. auto.
    + intros (d & Id & -> & Q). split; eauto.
  - destruct (list_variables_rec p MAX_MAPPED_VARS (Some [])) as [p' o]. simpl in H. subst o. discriminate E.
Qed.

Lemma rep_empty : forall W s, List.length (firsts W) <= MAX_MAPPED_VARS -> rep W empty_matching [] s.
Proof.
  intros W s L. constructor.
  - apply repeat_length.
  - intros x [].
  - intros x I _. pose proof (pos_lt W L x I) as P. unfold empty_matching. apply nth_error_repeat. auto.
Qed.
Lemma okl_one : forall t, machine_sized t -> okl (mkNL 1 [t]).
Proof. intros t H. unfold okl. cbn [nl_size nl_nodes List.length]. split; [reflexivity|]. split; [reflexivity|]. constructor; auto. Qed.
Lemma rep_delivers : forall p m s, rep (var_names p) m (var_names p) s -> delivers p m s.
Proof.
  intros p m s R x k E. assert (I : In x (var_names p)). { apply firsts_In. eapply nth_error_In; eauto. }
  destruct (rp_in _ _ _ _ R x I) as [_ [l [A [B _]]]]. exists l. split; auto.
  assert (k = pos (var_names p) x) as ->; auto. pose proof (firsts_NoDup (var_names p)) as ND. rewrite NoDup_nth_error in ND. apply ND.
  { apply nth_error_Some. congruence. } rewrite E. symmetry. apply pos_nth. auto.
Qed.
Lemma delivers_unique : forall p m s s', delivers p m s -> delivers p m s' -> forall x, In x (var_names p) -> s x = s' x.
Proof.
  intros p m s s' A B x I. apply firsts_In in I. apply In_nth_error in I. destruct I as [k E].
  destruct (A x k E) as (l & E1 & E2). destruct (B x k E) as (l' & E1' & E2'). congruence.
Qed.

Section Top.
Variable ck : node -> res bool.
Variables (p : node) (cs : list node) (pat : pattern).
Hypothesis HP : get_pattern p cs = PatOk pat.
Notation W := (var_names p).
Let vs := firsts W.

Lemma few_vars : List.length vs <= MAX_MAPPED_VARS.
Proof. apply (get_pattern_spec _ _ _ HP). Qed.
Lemma tree_named : named W (pt_tree pat).
Proof. destruct (get_pattern_spec _ _ _ HP) as (_ & -> & _). apply named_ids. apply incl_refl. Qed.
Lemma tree_names : var_names (pt_tree pat) = W.
Proof. destruct (get_pattern_spec _ _ _ HP) as (_ & -> & _). apply names_ids. Qed.
Lemma tree_inst : forall s, inst s (pt_tree pat) = inst s p.
Proof. intros s. destruct (get_pattern_spec _ _ _ HP) as (_ & -> & _). apply inst_ids. Qed.
Lemma cons_ok : covered p cs -> forall id c, In c (nth id (pt_constraints pat) []) -> named W c /\ forall y, In y (var_names c) -> pos W y <= id.
Proof.
  intros Cov id c I. destruct (get_pattern_spec _ _ _ HP) as (_ & _ & H). apply H in I. destruct I as (d & Id & -> & Q). fold vs in Q.
  assert (Inc : forall x, In x (var_names d) -> In x W) by (intros x Ix; eapply Cov; eauto).
  split.
  - fold vs. rewrite copy_ids_spec by (intros x Ix; apply firsts_In; auto). apply named_ids. exact Inc.
  - intros y Iy. rewrite Q. pose proof (trigger_spec (tree_copy_IDs d vs) vs 0 0 (le_n 0)) as (A & _). apply (A _ y); auto.
    apply pos_nth. apply Inc. rewrite names_copy in Iy. auto.
Qed.
Lemma list_var_ids : forall f q, list_var (with_ids f q) <-> list_var q.
Proof. intros f [v t|x i t|op l t]; simpl; tauto. Qed.

Theorem all_sound : forall t ms m, machine_sized t -> get_all_matchings ck pat t = Ok ms -> In m ms ->
  exists s, delivers p m s /\ fits s p /\ Forall2 alike (inst s p) [t] /\ (covered p cs -> W <> [] -> Forall (holds ck s) cs) /\ rep W m W s.
Proof.
  intros t ms m MS E I. unfold get_all_matchings in E.
  pose proof (ext_sound ck pat W few_vars (covered p cs) cons_ok (pt_tree pat) tree_named [] [] empty_matching (fun _ => []) (mkNL 1 [t]) ms m) as H.
  rewrite tree_names in H. cbn [app] in H. rewrite app_nil_r in H. specialize (H eq_refl (rep_empty W _ few_vars) (okl_one t MS) (fun _ => eq_refl) E I).
  destruct H as (s & R & _ & A & G). exists s. rewrite tree_inst in A. split; [apply rep_delivers; auto|]. split; [|split; [exact A|split; auto]].
  - intros x Ix. apply (proj1 G); auto.
  - intros Cov NE. apply Forall_forall. intros c Ic.
    destruct (get_pattern_spec _ _ _ HP) as (_ & _ & H). fold vs in H.
    set (c' := tree_copy_IDs c vs). set (id := trigger c' vs 0 0).
    assert (In c' (nth id (pt_constraints pat) [])) as I'. { apply H. exists c. auto. }
    assert (exists x, nth_error vs id = Some x) as [x Ex].
    { pose proof (trigger_spec c' vs 0 0 (le_n 0)) as (_ & _ & [C|(k & x & Ex & _ & C)]); fold id in C.
      - rewrite C. destruct vs eqn:Q; simpl; eauto. exfalso. destruct W as [|w W'] eqn:EW; [congruence|]. unfold vs in Q. simpl in Q. discriminate Q.
      - rewrite C. eauto. }
    assert (Ix : In x W). { apply firsts_In. eapply nth_error_In; eauto. }
    assert (Px : pos W x = id). { pose proof (firsts_NoDup W) as ND. rewrite NoDup_nth_error in ND. pose proof (pos_nth W x Ix) as PX. unfold L_MatchSem.vars in PX. apply ND. { apply nth_error_Some. rewrite PX. discriminate. } rewrite PX. auto. }
    pose proof (proj2 G Cov x Ix (fun K => K)) as F. rewrite Px, Forall_forall in F. specialize (F _ I').
    destruct F as (u & F1 & F2). exists u. unfold c' in F1. rewrite inst_copy in F1. auto.
Qed.
Theorem all_complete : forall t ms s, machine_sized t -> covered p cs -> get_all_matchings ck pat t = Ok ms ->
  stable_instance ck p cs t s -> exists m s', In m ms /\ delivers p m s' /\ agree p s s'.
Proof.
  intros t ms s MS Cov E (Fi & T & St). unfold get_all_matchings in E.
  assert (SC : forall s', like s W s' -> forall x, In x W -> Forall (holds ck s') (nth (pos W x) (pt_constraints pat) [])).
  { intros s' L x Ix. specialize (St s' L). apply Forall_forall. intros c Ic.
    destruct (get_pattern_spec _ _ _ HP) as (_ & _ & H). apply H in Ic. destruct Ic as (d & Id & -> & _). rewrite Forall_forall in St. destruct (St d Id) as (u & U1 & U2).
    exists u. rewrite inst_copy. auto. }
  pose proof (ext_complete ck pat W few_vars (covered p cs) cons_ok Cov s SC (pt_tree pat) tree_named [] [] empty_matching (fun _ => []) (mkNL 1 [t]) ms) as H.
  rewrite tree_names in H. cbn [app] in H. rewrite app_nil_r in H. destruct H as (m & s' & I & R & L); auto.
  - apply rep_empty. apply few_vars.
  - intros x [].
  - intros x Ix. eapply sg_refl_of; eauto.
  - apply okl_one; auto.
  - intros x. rewrite tree_names. apply Fi.
  - rewrite tree_inst. exact T.
  - exists m, s'. split; auto. split; [apply rep_delivers; auto|exact L].
Qed.
Lemma no_overrun_ids : forall f q V, no_overrun V q -> no_overrun V (with_ids f q).
Proof.
  intros f. induction q as [v t|x i t|op l t IH] using node_ind'; intros V H; auto. cbn [with_ids]. destruct H as [A B]. split.
  - clear B IH. induction l as [|a l IHl]; auto. destruct l as [|b l]; auto. destruct A as [A1 A2]. split.
    + destruct a as [|x j u|]; auto. cbn [with_ids]. intros L I. rewrite list_var_ids. auto.
    + apply IHl. auto.
  - clear A. revert V B. induction IH as [|c l Hc IH IHl]; intros V B; auto. destruct B as [B1 B2]. split; auto. rewrite names_ids. apply IHl. auto.
Qed.
Theorem all_safe : forall t, machine_sized t -> covered p cs -> no_overrun [] p -> answered ck p cs -> exists ms, get_all_matchings ck pat t = Ok ms.
Proof.
  intros t MS Cov No An. unfold get_all_matchings.
  assert (AN : forall (s' : assignment) x c, In x W -> In c (nth (pos W x) (pt_constraints pat) []) ->
    (forall y, In y (var_names c) -> ~ list_name y -> List.length (s' y) = 1) -> exists t0 b, inst s' c = [t0] /\ ck t0 = Ok b).
  { intros s' x c _ Ic Fy. destruct (get_pattern_spec _ _ _ HP) as (_ & _ & H). apply H in Ic. destruct Ic as (d & Id & -> & _). rewrite names_copy in Fy. rewrite inst_copy.
    set (s2 := fun y => if in_dec name_dec y (var_names d) then s' y else [NConst SpecFloat.S754_nan 0]).
    destruct (An s2 d) as (u & b & U1 & U2); auto.
    - intros y Iy Ly. unfold s2. destruct (in_dec name_dec y (var_names d)); auto.
    - exists u, b. split; auto. rewrite <- U1. apply inst_ext. intros y Iy. unfold s2. destruct (in_dec name_dec y (var_names d)); [auto|contradiction]. }
  pose proof (ext_safe ck pat W few_vars (covered p cs) cons_ok Cov AN (pt_tree pat) tree_named [] [] empty_matching (fun _ => []) (mkNL 1 [t])) as H.
  rewrite tree_names in H. apply H; auto.
  - cbn [app]. rewrite app_nil_r. reflexivity.
  - apply rep_empty. apply few_vars.
  - intros x [].
  - apply okl_one; auto.
  - destruct (get_pattern_spec _ _ _ HP) as (_ & -> & _). apply no_overrun_ids. auto.
Qed.

(** ** Searching all positions *)
Definition find_list (t : node) (l : list node) (i : nat) : res (option (path * matching)) :=
  (fix go (l : list node) (i : nat) : res (option (path * matching)) :=
         match l with
         | [] => Ok None
         | c :: l' =>
           r <- find_matching ck pat c ;;
           match r with
           | Some (p, m) => Ok (Some (i :: p, m))
           | None => go l' (S i)
           end
         end) l i.
Definition pos_list (l : list node) (i : nat) : list path :=
  (fix go (l : list node) (i : nat) : list path :=
             match l with [] => [] | c :: l' => under i (positions c) ++ go l' (S i) end) l i.
Definition nomatch (t : node) (q : path) : Prop := forall sub, subtree t q = Some sub -> get_matching ck pat sub = Ok None.
Lemma find_spec : forall t r, find_matching ck pat t = Ok r ->
  match r with
  | None => Forall (nomatch t) (positions t)
  | Some (q, m) => exists l1 l2 sub, positions t = l1 ++ q :: l2 /\ subtree t q = Some sub /\ get_matching ck pat sub = Ok (Some m) /\ Forall (nomatch t) l1
  end.
Proof.
  assert (Here : forall t m, get_matching ck pat t = Ok (Some m) ->
    exists l1 l2 sub, positions t = l1 ++ [] :: l2 /\ subtree t [] = Some sub /\ get_matching ck pat sub = Ok (Some m) /\ Forall (nomatch t) l1).
  { intros t m E. exists []. destruct t; cbn [positions]; eexists _, _; (split; [reflexivity|]; split; [reflexivity|]; split; [exact E|constructor]). }
  assert (Root : forall t, get_matching ck pat t = Ok None -> nomatch t []).
  { intros t E sub H. simpl in H. injection H as <-. auto. }
  induction t as [v k|x i k|op l k IH] using node_ind'; intros r E; cbn [find_matching] in E.
  - destruct (get_matching ck pat (NConst v k)) as [[m|]| |] eqn:G; cbn [rbind] in E; try discriminate E; injection E as <-; auto. cbn [positions]. repeat constructor. auto.
  - destruct (get_matching ck pat (NVar x i k)) as [[m|]| |] eqn:G; cbn [rbind] in E; try discriminate E; injection E as <-; auto. cbn [positions]. repeat constructor. auto.
  - destruct (get_matching ck pat (NOp op l k)) as [[m|]| |] eqn:G; cbn [rbind] in E; try discriminate E; [injection E as <-; auto|].
    fold (find_list (NOp op l k) l 0) in E. cbn [positions]. fold (pos_list l 0).
    assert (K : forall l' i r, (forall j c, nth_error l' j = Some c -> nth_error l (i + j) = Some c) -> Forall (fun n => forall r, find_matching ck pat n = Ok r ->
        match r with
        | None => Forall (nomatch n) (positions n)
        | Some (q, m) => exists l1 l2 sub, positions n = l1 ++ q :: l2 /\ subtree n q = Some sub /\ get_matching ck pat sub = Ok (Some m) /\ Forall (nomatch n) l1
        end) l' -> find_list (NOp op l k) l' i = Ok r ->
      match r with
      | None => Forall (nomatch (NOp op l k)) (pos_list l' i)
      | Some (q, m) => exists l1 l2 sub, pos_list l' i = l1 ++ q :: l2 /\ subtree (NOp op l k) q = Some sub /\ get_matching ck pat sub = Ok (Some m) /\ Forall (nomatch (NOp op l k)) l1
      end).
    { clear E r IH. induction l' as [|c l' IHl]; intros i r Hi F E.
      - injection E as <-. constructor.
      - cbn [find_list] in E. inversion F as [|? ? Hc F']; subst.
        assert (Ei : nth_error l i = Some c). { specialize (Hi 0 c eq_refl). rewrite Nat.add_0_r in Hi. auto. }
        assert (Up : forall q, nomatch c q -> nomatch (NOp op l k) (i :: q)).
        { intros q Nq sub Hs. cbn [subtree] in Hs. rewrite Ei in Hs. apply Nq. auto. }
        destruct (find_matching ck pat c) as [[[q m]|]| |] eqn:Ec; cbn [rbind] in E; try discriminate E.
        + injection E as <-. specialize (Hc _ eq_refl). destruct Hc as (l1 & l2 & sub & A & B & C & D).
          exists (under i l1), (under i l2 ++ pos_list l' (S i)), sub. cbn [pos_list]. fold (pos_list l' (S i)). split.
          { rewrite A. unfold under. rewrite map_app. cbn [map]. rewrite <- app_assoc. reflexivity. }
          split. { cbn [subtree]. rewrite Ei. auto. } split; auto. unfold under. apply Forall_map. eapply Forall_impl; [|exact D]. auto.
        + specialize (Hc _ eq_refl). fold (find_list (NOp op l k) l' (S i)) in E.
          assert (Hi' : forall j c0, nth_error l' j = Some c0 -> nth_error l (S i + j) = Some c0). { intros j c0 Hj. specialize (Hi (S j) c0 Hj). rewrite <- Hi. f_equal. lia. }
          specialize (IHl (S i) r Hi' F' E). cbn [pos_list]. fold (pos_list l' (S i)).
          assert (Fu : Forall (nomatch (NOp op l k)) (under i (positions c))). { unfold under. apply Forall_map. eapply Forall_impl; [|exact Hc]. auto. }
          destruct r as [[q m]|].
          * destruct IHl as (l1 & l2 & sub & A & B & C & D). exists (under i (positions c) ++ l1), l2, sub. rewrite A, <- app_assoc. split; auto. split; auto. split; auto. apply Forall_app. auto.
          * apply Forall_app. auto. }
    specialize (K l 0 r (fun j c H => H) IH E). destruct r as [[q m]|].
    + destruct K as (l1 & l2 & sub & A & B & C & D). exists ([] :: l1), l2, sub. rewrite A. split; auto.
    + constructor; auto.
Qed.
Lemma find_safe : (forall t, machine_sized t -> exists r, get_matching ck pat t = Ok r) -> forall t, machine_sized t -> exists r, find_matching ck pat t = Ok r.
Proof.
  intros H. induction t as [v k|x i k|op l k IH] using node_ind'; intros MS; cbn [find_matching]; destruct (H _ MS) as [r Er]; rewrite Er; cbn [rbind]; destruct r as [m|]; eauto.
  fold (find_list (NOp op l k) l 0). apply machine_op in MS. destruct MS as [_ MS]. clear Er. generalize 0. induction IH as [|c l Hc IH IHl]; intros i. { eexists. reflexivity. }
  inversion MS; subst. cbn [find_list]. destruct Hc as [r Er]; auto. rewrite Er. cbn [rbind]. destruct r as [[q m]|]; eauto.
Qed.
End Top.
