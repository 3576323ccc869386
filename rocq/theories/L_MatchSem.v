(** Meaning of the matchings found. *)
From Coq Require Import List Ascii String NArith ZArith Bool Lia Arith.
From Verif Require Import M_Base M_Tree M_TreeUtil M_Match S_Tree S_Match L_Trie L_Tree L_Match.
Import ListNotations.
Open Scope nat_scope.
Open Scope res_scope.

Lemma alike_refl : forall n, alike n n.
Proof.
  induction n as [v t|x i t|op cs t IH] using node_ind'; constructor; auto.
  induction IH; constructor; auto.
Qed.
Lemma alike_list_refl : forall l, Forall2 alike l l.
Proof. induction l; constructor; auto using alike_refl. Qed.
Lemma all2_Forall2 : forall cs ds, List.length cs = List.length ds -> all2 cs ds = true -> Forall2 teq cs ds.
Proof.
  induction cs as [|c cs IH]; intros [|d ds] L E; try discriminate L; constructor.
  - cbn in E. apply andb_true_iff in E. apply E.
  - apply IH. { simpl in L. lia. } cbn in E. apply andb_true_iff in E. apply E.
Qed.
Lemma Forall2_all2 : forall cs ds, Forall2 teq cs ds -> all2 cs ds = true.
Proof. intros cs ds F. induction F as [|c d cs ds E F IH]; auto. cbn. unfold teq in E. rewrite E. exact IH. Qed.
Lemma Forall2_len : forall A B (R : A -> B -> Prop) l m, Forall2 R l m -> List.length l = List.length m.
Proof. intros A B R l m F. induction F; simpl; auto. Qed.
Lemma teq_op : forall op cs t op' ds u, teq (NOp op cs t) (NOp op' ds u) <-> o_id op = o_id op' /\ Forall2 teq cs ds.
Proof.
  intros. unfold teq at 1. rewrite tree_equals_op, !andb_true_iff, !Nat.eqb_eq. split.
  - intros [[A B] C]. split; auto. apply all2_Forall2; auto.
  - intros [A B]. rewrite (Forall2_all2 cs ds B), (Forall2_len _ _ _ _ _ B). auto.
Qed.
Lemma teq_alike : forall a b, teq a b -> alike a b.
Proof.
  induction a as [v t|x i t|op cs t IH] using node_ind'; intros [w u|y j u|op' ds u] E; try discriminate E.
  - constructor. right. exact E.
  - unfold teq in E. cbn in E. apply andb_true_iff in E. destruct E as [A B]. apply Nat.eqb_eq in B. destruct (streqb_spec x y); try discriminate A. subst. constructor.
  - apply teq_op in E. destruct E as [A B]. constructor; auto. clear A. induction B; constructor; inversion IH; auto.
Qed.
Lemma teq_list_alike : forall l m, Forall2 teq l m -> Forall2 alike l m.
Proof. intros l m F. induction F; constructor; auto using teq_alike. Qed.
Lemma teq_sym : forall a b, teq a b -> teq b a.
Proof. unfold teq. intros a b E. rewrite tree_equals_sym. auto. Qed.
Lemma teq_trans : forall a b c, teq a b -> teq b c -> teq a c.
Proof. unfold teq. intros a b c. apply tree_equals_trans. Qed.
Lemma teqs_sym : forall l m, Forall2 teq l m -> Forall2 teq m l.
Proof. intros l m F. induction F; constructor; auto using teq_sym. Qed.
Lemma teqs_trans : forall l m k, Forall2 teq l m -> Forall2 teq m k -> Forall2 teq l k.
Proof. intros l m k F. revert k. induction F; intros k G; inversion G; subst; constructor; eauto using teq_trans. Qed.

Lemma is_list_name : forall x, ceqb (hd NUL x) MATCHING_LIST_PREFIX = true <-> list_name x.
Proof.
  intros x. unfold ceqb, MATCHING_LIST_PREFIX, list_name. rewrite Ascii.eqb_eq. split.
  - destruct x as [|c x]; simpl; [discriminate|]. intros ->. eauto.
  - intros [y ->]. reflexivity.
Qed.
Lemma list_name_dec : forall x, {list_name x} + {~ list_name x}.
Proof. intros x. destruct (ceqb (hd NUL x) MATCHING_LIST_PREFIX) eqn:E; [left|right]; rewrite <- is_list_name; congruence. Qed.

(** ** size_t *)
Lemma add64_small : forall a b, (a < 2 ^ 63)%N -> (b < 2 ^ 63)%N -> add64 a b = (a + b)%N.
Proof. intros a b A B. unfold add64. apply N.mod_small. unfold two64. assert (2 ^ 63 = 9223372036854775808)%N as E by reflexivity. lia. Qed.
Lemma sub64_small : forall a b, (b <= a)%N -> (a < 2 ^ 63)%N -> sub64 a b = (a - b)%N.
Proof.
  intros a b A B. unfold sub64. assert (2 ^ 63 = 9223372036854775808)%N as E by reflexivity.
  replace (a + two64 - b)%N with ((a - b) + 1 * two64)%N by (unfold two64 in *; lia). rewrite N.mod_add by discriminate.
  apply N.mod_small. unfold two64. lia.
Qed.

(** ** Node lists *)
Definition lst (l : nodelist) : list node := firstn (N.to_nat (nl_size l)) (nl_nodes l).
Definition okl (l : nodelist) : Prop :=
  (nl_size l <= N.of_nat (List.length (nl_nodes l)))%N /\ (N.of_nat (List.length (nl_nodes l)) < 2 ^ 63)%N /\ Forall machine_sized (nl_nodes l).
Lemma read_ok : forall l s, nl_read l = Ok s -> s = lst l /\ (nl_size l <= N.of_nat (List.length (nl_nodes l)))%N /\ nl_size l = N.of_nat (List.length s).
Proof.
  unfold nl_read, lst. intros l s E. destruct (N.leb_spec (nl_size l) (N.of_nat (List.length (nl_nodes l)))) as [H|H]; [|discriminate E].
  injection E as <-. split; auto. split; auto. rewrite firstn_length. lia.
Qed.
Lemma ok_read : forall l, okl l -> nl_read l = Ok (lst l).
Proof. unfold nl_read. intros l [H _]. apply N.leb_le in H. rewrite H. reflexivity. Qed.
Lemma equal_loop_true : forall k a b, equal_loop (N.of_nat k) a b = Ok true ->
  k <= List.length a /\ k <= List.length b /\ Forall2 teq (firstn k a) (firstn k b).
Proof.
  induction k as [|k IH]; intros a b E. { simpl. split; [lia|]. split; [lia|constructor]. }
  assert (Z : (N.of_nat (S k) =? 0)%N = false) by (apply N.eqb_neq; lia).
  destruct a as [|x a]. { cbn [equal_loop] in E. rewrite Z in E. discriminate E. }
  cbn [equal_loop] in E. rewrite Z in E. destruct b as [|y b]; [discriminate E|].
  destruct (tree_equals x y) eqn:T; [|discriminate E]. replace (N.pred (N.of_nat (S k))) with (N.of_nat k) in E by lia.
  destruct (IH a b E) as (A & B & C). simpl. split; [lia|]. split; [lia|]. constructor; auto.
Qed.
Lemma equal_loop_ok : forall k a b, k <= List.length a -> k <= List.length b ->
  exists r, equal_loop (N.of_nat k) a b = Ok r /\ (Forall2 teq (firstn k a) (firstn k b) -> r = true).
Proof.
  induction k as [|k IH]; intros a b A B. { exists true. destruct a; simpl; auto. }
  assert (Z : (N.of_nat (S k) =? 0)%N = false) by (apply N.eqb_neq; lia).
  destruct a as [|x a]; simpl in A; [lia|]. destruct b as [|y b]; simpl in B; [lia|].
  cbn [equal_loop]. rewrite Z. replace (N.pred (N.of_nat (S k))) with (N.of_nat k) by lia.
  destruct (IH a b ltac:(lia) ltac:(lia)) as [r [E F]].
  destruct (tree_equals x y) eqn:T.
  - exists r. split; auto. intros G. simpl in G. inversion G; subst. auto.
  - exists false. split; auto. intros G. simpl in G. inversion G; subst. unfold teq in *. congruence.
Qed.
Lemma equal_true : forall a b, nodelists_equal a b = Ok true -> nl_size a = nl_size b /\ okl b -> Forall2 teq (lst a) (lst b).
Proof.
  unfold nodelists_equal, lst. intros a b E [S _]. rewrite S, N.eqb_refl in E. rewrite <- (N2Nat.id (nl_size b)) in E. apply equal_loop_true in E.
  rewrite S. apply E.
Qed.

(** ** Instances *)
Lemma inst_ext : forall s s' p, (forall x, In x (var_names p) -> s x = s' x) -> inst s p = inst s' p.
Proof.
  intros s s'. induction p as [v t|x i t|op cs t IH] using node_ind'; intros H; simpl; auto.
  - apply H. left. reflexivity.
  - f_equal. f_equal. rewrite !flat_map_concat_map. f_equal. apply map_ext_in. intros c Ic. rewrite Forall_forall in IH. apply IH; auto.
    intros x Ix. apply H. simpl. apply in_flat_map. eauto.
Qed.
Lemma insts_ext : forall s s' cs, (forall x, In x (flat_map var_names cs) -> s x = s' x) -> flat_map (inst s) cs = flat_map (inst s') cs.
Proof.
  intros s s' cs H. rewrite !flat_map_concat_map. f_equal. apply map_ext_in. intros c Ic. apply inst_ext. intros x Ix. apply H. apply in_flat_map. eauto.
Qed.
Lemma holds_ext : forall ck s s' c, (forall x, In x (var_names c) -> s x = s' x) -> holds ck s c -> holds ck s' c.
Proof. unfold holds. intros ck s s' c H [t [A B]]. exists t. rewrite <- (inst_ext s s' c H). auto. Qed.

Section Sem.
Variable ck : node -> res bool.
Variable pat : pattern.
Variable W : list cstr.
Notation PC := (pt_constraints pat).
Definition vars : list cstr := firsts W.
Definition pos (x : cstr) : nat := pos_in vars x.
Hypothesis few : List.length vars <= MAX_MAPPED_VARS.

Fixpoint named (n : node) : Prop :=
  match n with
  | NConst _ _ => True
  | NVar x id _ => In x W /\ id = pos x
  | NOp _ cs _ => (fix all (l : list node) : Prop := match l with [] => True | c :: l' => named c /\ all l' end) cs
  end.
Lemma named_op : forall op cs t, named (NOp op cs t) <-> Forall named cs.
Proof.
  intros op cs t. cbn [named]. induction cs as [|c cs IH]. { split; auto. }
  split; [intros [A B]; constructor; auto; apply IH; auto|]. intros F. inversion F; subst. split; auto. apply IH; auto.
Qed.
Lemma named_in : forall n x, named n -> In x (var_names n) -> In x W.
Proof.
  induction n as [v t|y i t|op cs t IH] using node_ind'; intros x H I; simpl in I.
  - destruct I.
  - destruct I as [<-|[]]. apply H.
  - apply named_op in H. apply in_flat_map in I. destruct I as [c [Ic Ix]]. rewrite Forall_forall in *. eauto.
Qed.
Lemma pos_nth : forall x, In x W -> nth_error vars (pos x) = Some x.
Proof. intros x I. apply pos_in_nth. apply firsts_In. auto. Qed.
Lemma pos_lt : forall x, In x W -> pos x < MAX_MAPPED_VARS.
Proof. intros x I. apply pos_nth in I. assert (pos x < List.length vars) by (apply nth_error_Some; congruence). lia. Qed.
Lemma pos_inj : forall x y, In x W -> In y W -> pos x = pos y -> x = y.
Proof. intros x y I J E. apply pos_nth in I, J. congruence. Qed.
Lemma pos_order : forall V x post y, W = V ++ x :: post -> ~ In x V -> In y W -> pos y <= pos x -> In y V \/ y = x.
Proof.
  intros V x post y E N I L.
  assert (In x W) as Ix by (rewrite E; apply in_or_app; right; left; auto).
  assert (EV : exists r, vars = firsts V ++ x :: r).
  { unfold vars. rewrite E, <- !news_firsts, news_app. simpl. destruct (in_dec name_dec x (news [] V)) as [K|K].
    - rewrite news_firsts, firsts_In in K. contradiction.
    - eexists. reflexivity. }
  destruct EV as [r EV]. pose proof (firsts_NoDup W) as ND. fold vars in ND.
  assert (Hx : pos x = List.length (firsts V)).
  { rewrite NoDup_nth_error in ND. apply ND. { apply nth_error_Some. rewrite (pos_nth x Ix). discriminate. }
    rewrite (pos_nth x Ix), EV, nth_error_app2, Nat.sub_diag by lia. reflexivity. }
  apply pos_nth in I. rewrite EV in I. destruct (Nat.eq_dec (pos y) (pos x)) as [Q|Q].
  - right. rewrite Q, Hx, nth_error_app2, Nat.sub_diag in I by lia. simpl in I. congruence.
  - left. rewrite nth_error_app1 in I by lia. apply nth_error_In in I. apply (proj1 (firsts_In _ _)) in I. auto.
Qed.

(** [QC]: the constraints speak of variables of the pattern only. *)
Variable QC : Prop.
Hypothesis PCok : QC -> forall id c, In c (nth id PC []) -> named c /\ forall y, In y (var_names c) -> pos y <= id.

(** [m] binds exactly the variables [V], as [s] says. *)
Record rep (m : matching) (V : list cstr) (s : assignment) : Prop := {
  rp_len : List.length m = MAX_MAPPED_VARS;
  rp_in : forall x, In x V -> In x W /\ exists l, nth_error m (pos x) = Some (Some l) /\ nl_read l = Ok (s x) /\ (N.of_nat (List.length (nl_nodes l)) < 2 ^ 63)%N;
  rp_out : forall x, In x W -> ~ In x V -> nth_error m (pos x) = Some None }.
Lemma rep_incl : forall m V V' s, (forall x, In x V <-> In x V') -> rep m V s -> rep m V' s.
Proof. intros m V V' s H [A B C]. constructor; auto. { intros x I. apply B. apply H; auto. } intros x I N. apply C; auto. intros J. apply N. apply H. auto. Qed.

Lemma mapped_list_rep : forall m V s x, rep m V s -> In x V -> mapped_list m (pos x) = Ok (s x).
Proof.
  intros m V s x R I. destruct (rp_in _ _ _ R x I) as [_ [l [E [Q _]]]]. unfold mapped_list, mapped. rewrite E. simpl. auto.
Qed.
Definition tr_list (m : matching) (l : list node) : res (list node) :=
  (fix go (l : list node) : res (list node) :=
              match l with
              | [] => Ok []
              | c :: l' => a <- transform_child m c ;; b <- go l' ;; Ok (a ++ b)
              end) l.
Lemma tr_list_eq : forall m l, tr_list m l = transform_matched_recursive m l.
Proof. intros m. induction l as [|c l IH]; simpl; auto. rewrite <- IH. reflexivity. Qed.
Lemma map_copy : forall l, map tree_copy l = l.
Proof. intros l. apply map_id_in. apply Forall_forall. intros x _. apply tree_copy_id. Qed.
Lemma transform_child_rep : forall m V s n, rep m V s -> named n -> incl (var_names n) V -> transform_child m n = Ok (inst s n).
Proof.
  intros m V s n R. induction n as [v t|x i t|op cs t IH] using node_ind'; intros N I.
  - reflexivity.
  - destruct N as [Nx ->]. cbn [transform_child inst]. rewrite (mapped_list_rep m V s x R) by (apply I; left; auto). simpl. rewrite map_copy. reflexivity.
  - apply named_op in N.
    assert (E : tr_list m cs = Ok (flat_map (inst s) cs)).
    { cbn [var_names] in I. clear t op. induction cs as [|c cs IHc]; auto. inversion IH; inversion N; subst. cbn [tr_list]. 
      rewrite H1 by (auto; intros y Iy; apply I; simpl; apply in_or_app; auto). cbn [rbind]. fold (tr_list m cs).
      rewrite IHc; auto. intros y Iy. apply I. simpl. apply in_or_app. auto. }
    cbn [transform_child]. fold (tr_list m cs). rewrite E. reflexivity.
Qed.
Lemma transform_rep : forall m V s n, rep m V s -> named n -> incl (var_names n) V ->
  transform_by_matching m n = match inst s n with [t] => Ok t | _ => Halt end.
Proof.
  intros m V s [v t|x i t|op cs t] R N I.
  - reflexivity.
  - destruct N as [Nx ->]. cbn [transform_by_matching inst]. destruct (rp_in _ _ _ R x (I x (or_introl eq_refl))) as [_ [l [E [Q _]]]].
    unfold mapped. rewrite E. simpl. apply read_ok in Q. destruct Q as [Q1 [Q2 Q3]].
    destruct (N.eqb_spec (nl_size l) 1) as [K|K].
    + unfold lst in Q1. rewrite K in Q1. simpl in Q1. destruct (nl_nodes l) as [|t0 r]. { simpl in Q2. lia. } rewrite Q1. simpl. rewrite tree_copy_id. reflexivity.
    + destruct (s x) as [|a [|b r]]; auto. exfalso. apply K. rewrite Q3. reflexivity.
  - cbn [transform_by_matching inst]. rewrite <- tr_list_eq.
    pose proof (transform_child_rep m V s (NOp op cs t) R N I) as T. cbn [transform_child] in T. fold (tr_list m cs) in T.
    destruct (tr_list m cs); simpl in T; try discriminate T. injection T as ->. reflexivity.
Qed.
Lemma check_true : forall m V s cs, rep m V s -> Forall named cs -> (forall c, In c cs -> incl (var_names c) V) ->
  check_constraints ck cs m = Ok true -> Forall (holds ck s) cs.
Proof.
  intros m V s cs R. induction cs as [|c cs IH]; intros N I E. { constructor. }
  inversion N; subst. cbn [check_constraints] in E. rewrite tree_copy_id in E. rewrite (transform_rep m V s c R) in E by (auto; apply I; left; auto).
  destruct (inst s c) as [|t [|]] eqn:Q; try discriminate E. cbn [rbind] in E. destruct (ck t) as [[|]| |] eqn:K; cbn [rbind] in E; try discriminate E.
  constructor. { exists t. auto. } apply IH; auto. intros d Id. apply I. right. auto.
Qed.
Lemma check_holds : forall m V s cs, rep m V s -> Forall named cs -> (forall c, In c cs -> incl (var_names c) V) ->
  Forall (holds ck s) cs -> check_constraints ck cs m = Ok true.
Proof.
  intros m V s cs R. induction cs as [|c cs IH]; intros N I E. { reflexivity. }
  inversion N; inversion E; subst. cbn [check_constraints]. rewrite tree_copy_id. rewrite (transform_rep m V s c R) by (auto; apply I; left; auto).
  destruct H5 as [t [A B]]. rewrite A. cbn [rbind]. rewrite B. cbn [rbind]. apply IH; auto. intros d Id. apply I. right. auto.
Qed.

Lemma set_mapped_len : forall m i l, List.length (set_mapped m i l) = List.length m.
Proof. induction m as [|o m IH]; intros [|i] l; simpl; auto. Qed.
Lemma set_mapped_nth : forall m i l j, nth_error (set_mapped m i l) j =
  if j =? i then match nth_error m i with Some _ => Some (Some l) | None => None end else nth_error m j.
Proof. induction m as [|o m IH]; intros [|i] l [|j]; simpl; auto. destruct (j =? i); auto. Qed.
Definition upd_s (s : assignment) (x : cstr) (l : list node) : assignment := fun y => if name_dec x y then l else s y.
Lemma rep_bind : forall m V s x tl, rep m V s -> In x W -> ~ In x V -> okl tl ->
  rep (set_mapped m (pos x) tl) (V ++ [x]) (upd_s s x (lst tl)).
Proof.
  intros m V s x tl [A B C] Ix Nx O. constructor.
  - rewrite set_mapped_len. auto.
  - intros y Iy. rewrite set_mapped_nth. unfold upd_s. apply in_app_or in Iy. destruct (name_dec x y) as [<-|Ne].
    + split; auto. rewrite Nat.eqb_refl, (C x Ix Nx). exists tl. split; auto. split. { apply ok_read; auto. } apply O.
    + destruct Iy as [Iy|[Iy|[]]]; [|contradiction]. destruct (B y Iy) as [Iw [l [E [R S]]]]. split; auto.
      destruct (Nat.eqb_spec (pos y) (pos x)) as [Q|Q]. { exfalso. apply Ne. apply pos_inj; auto. } exists l. auto.
  - intros y Iy Ny. rewrite set_mapped_nth. destruct (Nat.eqb_spec (pos y) (pos x)) as [Q|Q].
    + exfalso. apply Ny. apply in_or_app. right. left. apply pos_inj; auto.
    + apply C; auto. intros J. apply Ny. apply in_or_app. auto.
Qed.

(** ** The labels *)
Lemma next_labels_spec : forall m0 V s0 p last n s ls l, rep m0 V s0 -> named p -> (s <= n)%N -> (n < 2 ^ 63)%N ->
  next_labels m0 p last n s = Ok ls -> In l ls ->
  ((s + l <= n)%N /\ (~ list_var p -> l = 1%N)) \/
  (exists x id t lb, p = NVar x id t /\ list_name x /\ In x V /\ nth_error m0 (pos x) = Some (Some lb) /\ l = nl_size lb /\ (n < s + l)%N /\ (l < 2 ^ 63)%N).
Proof.
  intros m0 V s0 p last n s ls l R Np Hs Hn E I.
  assert (U : forall x id t, p = NVar x id t -> list_name x -> unbound_labels last n s = Ok ls -> (s + l <= n)%N).
  { intros x id t _ _ Eu. unfold unbound_labels in Eu. destruct last.
    - injection Eu as <-. destruct I as [<-|[]]. rewrite sub64_small by auto. lia.
    - rewrite sub64_small in Eu by auto. rewrite add64_small in Eu by (try lia; reflexivity).
      destruct (N.leb_spec (n - s + 1) (n + 1)) as [K|K]; [|lia]. injection Eu as <-. apply in_map_iff in I. destruct I as [k [<- Ik]]. apply in_seq in Ik. lia. }
  assert (NL : forall p', (if (s <? n)%N then Ok [1%N] else Ok []) = Ok ls -> (s + l <= n)%N /\ (~ list_var p' -> l = 1%N)).
  { intros p' Q. destruct (N.ltb_spec s n); injection Q as <-; [|destruct I]. destruct I as [<-|[]]. split; [lia|auto]. }
  destruct p as [v t|x id t|op cs t].
  - left. apply (NL (NConst v t)). exact E.
  - cbn [next_labels] in E. destruct (ceqb (hd NUL x) MATCHING_LIST_PREFIX) eqn:C.
    + pose proof (proj1 (is_list_name x) C) as LN. destruct Np as [Ix ->]. unfold mapped in E.
      destruct (in_dec name_dec x V) as [IV|NV].
      * destruct (rp_in _ _ _ R x IV) as [_ [lb [Q [Rd Sz]]]]. rewrite Q in E. cbn [rbind] in E.
        destruct (add64 s 1 <=? n)%N.
        -- injection E as <-. destruct I as [<-|[]]. destruct (N.le_gt_cases (s + nl_size lb) n) as [K|K].
           ++ left. split; auto. intros F. exfalso. apply F. exact LN.
           ++ right. exists x, (pos x), t, lb. split; [reflexivity|]. split; [exact LN|]. split; [exact IV|]. split; [exact Q|]. split; [reflexivity|]. split; auto.
              apply read_ok in Rd. lia.
        -- left. split. { eapply U; eauto. } intros F. exfalso. apply F. exact LN.
      * rewrite (rp_out _ _ _ R x Ix NV) in E. cbn [rbind] in E. left. split. { eapply U; eauto. } intros F. exfalso. apply F. exact LN.
    + left. apply (NL (NVar x id t)). exact E.
  - left. apply (NL (NOp op cs t)). exact E.
Qed.

(** ** Soundness *)
Definition good (s' : assignment) (V new : list cstr) : Prop :=
  (forall x, In x new -> ~ In x V -> ~ list_name x -> List.length (s' x) = 1) /\
  (QC -> forall x, In x new -> ~ In x V -> Forall (holds ck s') (nth (pos x) PC [])).
Definition sound_at (p : node) : Prop := forall V post m s tl ms m',
  W = V ++ var_names p ++ post -> rep m V s -> okl tl -> (~ list_var p -> nl_size tl = 1%N) ->
  extend_matching ck pat p m tl = Ok ms -> In m' ms ->
  exists s', rep m' (V ++ var_names p) s' /\ (forall x, In x V -> s' x = s x) /\
    Forall2 alike (inst s' p) (lst tl) /\ good s' V (var_names p).

Section Params.
Variables (cs tcs : list node) (V post : list cstr) (s0 : assignment) (m0 : matching).
Notation n := (N.of_nat (List.length tcs)).
Notation exts := (map (extend_matching ck pat) cs).
Hypothesis HW : W = V ++ flat_map var_names cs ++ post.
Hypothesis Hn : Forall named cs.
Hypothesis HR : rep m0 V s0.
Hypothesis Hsz : (n < 2 ^ 63)%N.
Hypothesis Hms : Forall machine_sized tcs.

Fixpoint path_ok (g : list N) : Prop :=
  match g with
  | [] => True
  | l :: g' => path_ok g' /\ exists p ls, nth_error cs (List.length g') = Some p /\
      next_labels m0 p (List.length g' =? List.length cs - 1) n (rsum g') = Ok ls /\ In l ls
  end.
Lemma dfs_path : forall ps g pl, dfs tcs m0 ps g = Ok pl -> skipn (List.length g) cs = ps -> path_ok g ->
  forall g', In g' pl -> path_ok g' /\ List.length g' = List.length g + List.length ps /\ exists e, g' = e ++ g.
Proof.
  induction ps as [|p ps IH]; intros g pl E Q P g' I.
  - injection E as <-. destruct I as [<-|[]]. split; auto. split; [simpl; lia|]. exists []. reflexivity.
  - cbn [dfs] in E. destruct (next_labels m0 p (isnil ps) n (rsum g)) as [ls| |] eqn:Nl; cbn [rbind] in E; try discriminate E.
    destruct (rflat_In _ _ _ _ _ _ E I) as (l & a & Il & Ea & Ig).
    assert (Ep : nth_error cs (List.length g) = Some p). { replace (List.length g) with (List.length g + 0) by lia. rewrite <- nth_skipn, Q. reflexivity. }
    assert (Es : skipn (List.length (l :: g)) cs = ps). { pose proof (skipn_nth _ _ _ _ Ep) as K. rewrite Q in K. injection K as K. auto. }
    assert (Lt : List.length g < List.length cs) by (apply nth_error_Some; congruence).
    destruct (IH (l :: g) a Ea Es) with (g' := g') as [A [B [e C]]]; auto.
    + split; auto. exists p, ls. split; auto. split; auto. rewrite <- isnil_last by auto. rewrite <- Nl. f_equal. f_equal. exact Es.
    + split; auto. split. { simpl in *. lia. } exists (e ++ [l]). rewrite <- app_assoc. auto.
Qed.
Lemma exts_nth : forall d p, nth_error cs d = Some p -> vget exts d = Ok (extend_matching ck pat p).
Proof. intros d p E. apply vget_nth. rewrite nth_error_map, E. reflexivity. Qed.
Lemma firstn_snoc : forall A (l : list A) d x, nth_error l d = Some x -> firstn (S d) l = firstn d l ++ [x].
Proof. induction l as [|y l IH]; intros [|d] x E; simpl in *; try discriminate E. { injection E as ->. reflexivity. } f_equal. auto. Qed.
Lemma split_W : forall d p, nth_error cs d = Some p ->
  W = (V ++ flat_map var_names (firstn d cs)) ++ var_names p ++ flat_map var_names (skipn (S d) cs) ++ post.
Proof.
  intros d p E. rewrite HW. rewrite <- (firstn_skipn d cs) at 1. rewrite (skipn_nth _ _ _ _ E), flat_map_app. simpl. rewrite <- !app_assoc. reflexivity.
Qed.

(** A list too long for what is left never compares equal. *)
Lemma overrun_none : forall m1 V1 s1 x t lb l s ms, rep m1 V1 s1 -> In x V1 -> In x V -> s1 x = s0 x ->
  nth_error m0 (pos x) = Some (Some lb) -> l = nl_size lb -> (s <= n)%N -> (n < s + l)%N ->
  extend_matching ck pat (NVar x (pos x) t) m1 (mkNL l (skipn (N.to_nat s) tcs)) = Ok ms -> ms = [].
Proof.
  intros m1 V1 s1 x t lb l s ms R1 I1 IV Eq E0 El Sn O E.
  destruct (rp_in _ _ _ R1 x I1) as [_ [l1 [E1 [Q1 _]]]]. destruct (rp_in _ _ _ HR x IV) as [_ [l0 [E0' [Q0 _]]]].
  rewrite E0 in E0'. injection E0' as <-. apply read_ok in Q0, Q1.
  cbn [extend_matching] in E. unfold mapped in E. rewrite E1 in E. cbn [rbind] in E.
  unfold nodelists_equal in E. cbn [nl_size nl_nodes] in E.
  assert (S1 : nl_size l1 = l). { rewrite El. destruct Q0 as [_ [_ ->]], Q1 as [_ [_ ->]]. rewrite Eq. reflexivity. }
  rewrite S1, N.eqb_refl in E.
  destruct (equal_loop l (nl_nodes l1) (skipn (N.to_nat s) tcs)) as [[|]| |] eqn:EL; cbn [rbind] in E; try discriminate E.
  - rewrite <- (N2Nat.id l) in EL. apply equal_loop_true in EL. rewrite skipn_length in EL. exfalso. clear - EL Sn O. lia.
  - congruence.
Qed.

Lemma path_sound : Forall sound_at cs -> forall g ms m', path_ok g -> evr exts tcs m0 g = Ok ms -> In m' ms ->
  exists s', rep m' (V ++ flat_map var_names (firstn (List.length g) cs)) s' /\ (forall x, In x V -> s' x = s0 x) /\
    (rsum g <= n)%N /\ Forall2 alike (flat_map (inst s') (firstn (List.length g) cs)) (firstn (N.to_nat (rsum g)) tcs) /\
    good s' V (flat_map var_names (firstn (List.length g) cs)).
Proof.
  intros S. induction g as [|l g IH]; intros ms m' P E I.
  - injection E as <-. destruct I as [<-|[]]. exists s0. simpl. rewrite app_nil_r. split; auto. split; auto. split; [lia|]. split; [constructor|]. split; [|intros _]; intros x [].
  - destruct P as [P (p & ls & Ep & El & Il)]. cbn [evr] in E. destruct (evr exts tcs m0 g) as [ms1| |] eqn:E1; cbn [rbind] in E; try discriminate E.
    unfold ext_at in E. rewrite (exts_nth _ _ Ep) in E. cbn [rbind] in E.
    destruct (rflat_In _ _ _ _ _ _ E I) as (m1 & a & I1 & Ea & Ia).
    destruct (IH ms1 m1 P eq_refl I1) as (s1 & R1 & A1 & B1 & F1 & G1).
    assert (Np : named p). { rewrite Forall_forall in Hn. apply Hn. eapply nth_error_In; eauto. }
    assert (Sp : sound_at p). { rewrite Forall_forall in S. apply S. eapply nth_error_In; eauto. }
    set (s := rsum g) in *.
    destruct (next_labels_spec m0 V s0 p _ n s ls l HR Np B1 Hsz El Il) as [[Le One]|(x & id & t & lb & -> & LN & IV & Q & El2 & Ov & _)].
    + set (tl := mkNL l (skipn (N.to_nat s) tcs)) in *.
      assert (O : okl tl).
      { unfold okl, tl. cbn [nl_size nl_nodes]. rewrite skipn_length. split; [lia|]. split; [lia|]. apply Forall_forall. intros y Iy. rewrite Forall_forall in Hms. apply Hms. eapply skipn_incl; eauto. }
      destruct (Sp _ _ m1 s1 tl a m' (split_W _ _ Ep) R1 O One Ea Ia) as (s' & R' & A' & F' & G').
      exists s'. cbn [List.length]. rewrite (firstn_snoc _ _ _ _ Ep), !flat_map_app. cbn [flat_map]. rewrite !app_nil_r.
      split. { rewrite app_assoc. auto. }
      assert (Ag : forall x, In x (flat_map var_names (firstn (List.length g) cs)) -> s' x = s1 x). { intros x Ix. apply A'. apply in_or_app. auto. }
      split. { intros x Ix. rewrite A' by (apply in_or_app; auto). auto. }
      assert (Rs : rsum (l :: g) = (s + l)%N). { cbn [rsum]. fold s. apply add64_small; lia. }
      rewrite Rs. split; auto. split.
      * replace (N.to_nat (s + l)) with (N.to_nat s + N.to_nat l) by lia.
        assert (FS : firstn (N.to_nat s + N.to_nat l) tcs = firstn (N.to_nat s) tcs ++ lst tl).
        { unfold lst, tl. cbn [nl_size nl_nodes]. rewrite <- (firstn_skipn (N.to_nat s) tcs) at 1. rewrite firstn_app.
          rewrite firstn_firstn, firstn_length. replace (Nat.min (N.to_nat s + N.to_nat l) (N.to_nat s)) with (N.to_nat s) by lia.
          replace (N.to_nat s + N.to_nat l - Nat.min (N.to_nat s) (List.length tcs)) with (N.to_nat l) by lia. reflexivity. }
        rewrite FS. apply Forall2_app; auto. rewrite (insts_ext s' s1); auto.
      * split.
        -- intros x Ix Nx Lx. destruct (in_dec name_dec x (flat_map var_names (firstn (List.length g) cs))) as [J|J].
           ++ rewrite Ag by auto. apply G1; auto.
           ++ apply in_app_or in Ix. destruct Ix as [Ix|Ix]; [contradiction|]. apply G'; auto. intros K. apply in_app_or in K. tauto.
        -- intros HQ x Ix Nx. destruct (in_dec name_dec x (flat_map var_names (firstn (List.length g) cs))) as [J|J].
           ++ pose proof (proj2 G1 HQ x J Nx) as F. apply Forall_forall. intros c Ic. rewrite Forall_forall in F.
              apply holds_ext with (s := s1); auto. intros y Iy. symmetry. apply A'.
              destruct (PCok HQ _ _ Ic) as [Nc Lc].
              (* y occurs before or at x *)
              assert (IW : In x W). { apply (rp_in _ _ _ R1). apply in_or_app. auto. }
              specialize (Lc y Iy). assert (In y W) as IyW by (eapply named_in; eauto).
              destruct (in_dec name_dec y (V ++ flat_map var_names (firstn (List.length g) cs))) as [K|K]; auto. exfalso.
              (* then y is first seen later than x *)
              set (V1 := V ++ flat_map var_names (firstn (List.length g) cs)) in *.
              assert (exists r, W = V1 ++ r) as [r Er]. { exists (var_names p ++ flat_map var_names (skipn (Datatypes.S (List.length g)) cs) ++ post). apply split_W. auto. }
              assert (exists a1 a2, W = a1 ++ y :: a2 /\ ~ In y a1 /\ incl V1 a1) as (a1 & a2 & Ea1 & Ny & In1).
              { assert (In y r) as Iyr. { rewrite Er in IyW. apply in_app_or in IyW. destruct IyW; [contradiction|auto]. }
                assert (exists r1 r2, r = r1 ++ y :: r2 /\ ~ In y r1) as (r1 & r2 & Er1 & Nr1).
                { clear - Iyr. induction r as [|z r IHr]; [destruct Iyr|]. destruct (name_dec z y) as [->|Nz]. { exists [], r. auto. }
                  destruct Iyr as [->|Iyr]; [congruence|]. destruct (IHr Iyr) as (r1 & r2 & -> & Nr). exists (z :: r1), r2. split; auto. intros [->|H]; auto. }
                exists (V1 ++ r1), r2. rewrite Er, Er1, <- app_assoc. split; auto. split. { intros H. apply in_app_or in H. tauto. } apply incl_appl. apply incl_refl. }
              assert (In x a1) as Ixa. { apply In1. unfold V1. apply in_or_app. auto. }
              destruct (Nat.eq_dec (pos y) (pos x)) as [Q|Q]. { apply Ny. rewrite (pos_inj y x); auto. }
              assert (pos y < pos x) as Lyx by lia.
              (* but positions follow first occurrences *)
              pose proof (firsts_NoDup W) as ND. fold vars in ND.
              assert (EV : exists r', vars = firsts a1 ++ y :: r').
              { unfold vars. rewrite Ea1, <- !news_firsts, news_app. simpl. destruct (in_dec name_dec y (news [] a1)) as [Z|Z].
                - rewrite news_firsts, firsts_In in Z. contradiction.
                - eexists. reflexivity. }
              destruct EV as [r' EV].
              assert (Hy : pos y = List.length (firsts a1)).
              { rewrite NoDup_nth_error in ND. apply ND. { apply nth_error_Some. rewrite (pos_nth y IyW). discriminate. }
                rewrite (pos_nth y IyW), EV, nth_error_app2, Nat.sub_diag by lia. reflexivity. }
              assert (exists k, k < List.length (firsts a1) /\ nth_error vars k = Some x) as [k [Lk Ek]].
              { apply (proj2 (firsts_In _ _)) in Ixa. apply In_nth_error in Ixa. destruct Ixa as [k Ek]. exists k.
                assert (k < List.length (firsts a1)) by (apply nth_error_Some; congruence). split; auto. rewrite EV, nth_error_app1; auto. }
              assert (k = pos x). { rewrite NoDup_nth_error in ND. apply ND. { apply nth_error_Some. congruence. } rewrite Ek, (pos_nth x IW). reflexivity. }
              lia.
           ++ apply in_app_or in Ix. destruct Ix as [Ix|Ix]; [contradiction|]. apply (proj2 G'); auto. intros K. apply in_app_or in K. tauto.
    + destruct Np as [_ ->]. exfalso.
      rewrite (overrun_none m1 _ s1 x t lb l s a R1) in Ia; auto. apply in_or_app. auto.
Qed.
End Params.

Lemma machine_op : forall op cs t, machine_sized (NOp op cs t) -> (N.of_nat (List.length cs) < 2 ^ 63)%N /\ Forall machine_sized cs.
Proof.
  intros op cs t [A B]. split; auto. clear A. induction cs as [|c cs IH]; constructor; [apply B|apply IH; apply B].
Qed.
Lemma size1 : forall tl t, nl_size tl = 1%N -> vget (nl_nodes tl) 0 = Ok t -> lst tl = [t].
Proof. unfold lst. intros tl t S E. rewrite S. apply vget_nth in E. destruct (nl_nodes tl); simpl in *; congruence. Qed.
Lemma ids_named : forall m V s cs, rep m V s -> Forall named cs -> forall p, In p cs -> match p with NVar _ id _ => id < List.length m | _ => True end.
Proof.
  intros m V s cs R N p I. rewrite Forall_forall in N. specialize (N p I). destruct p; auto. destruct N as [A ->].
  rewrite (rp_len _ _ _ R). apply pos_lt. auto.
Qed.

Lemma ext_sound : forall p, named p -> sound_at p.
Proof.
  induction p as [v t|x i t|op cs t IH] using node_ind'; intros Np V post m s tl ms m' HW R O One E I.
  - cbn [extend_matching] in E. destruct (N.eqb_spec (nl_size tl) 1) as [Z|Z]; [|injection E as <-; destruct I].
    destruct (vget (nl_nodes tl) 0) as [u| |] eqn:Eu; cbn [rbind] in E; try discriminate E.
    destruct (tree_equals (NConst v t) u) eqn:T; injection E as <-; [|destruct I]. destruct I as [<-|[]].
    exists s. cbn [var_names]. rewrite app_nil_r. split; auto. split; auto. split. 2: { split; [|intros _]; intros x []. }
    rewrite (size1 tl u Z Eu). constructor; [|constructor]. apply teq_alike. exact T.
  - destruct Np as [Ix ->]. cbn [extend_matching] in E. unfold mapped in E. destruct (in_dec name_dec x V) as [IV|NV].
    + destruct (rp_in _ _ _ R x IV) as [_ [l [El [Rl _]]]]. rewrite El in E. cbn [rbind] in E.
      destruct (nodelists_equal l tl) as [[|]| |] eqn:Q; cbn [rbind] in E; try discriminate E; injection E as <-; [|destruct I].
      destruct I as [<-|[]]. exists s. cbn [var_names]. split.
      * apply rep_incl with (V := V); auto. intros y. rewrite in_app_iff. simpl. split; auto. intros [H|[<-|[]]]; auto.
      * split; auto. split.
        -- cbn [inst]. apply teq_list_alike. apply read_ok in Rl. destruct Rl as [-> _]. apply equal_true; auto.
           split; auto. unfold nodelists_equal in Q. destruct (N.eqb_spec (nl_size l) (nl_size tl)); auto. discriminate Q.
        -- split; [|intros _]; intros y [<-|[]]; contradiction.
    + rewrite (rp_out _ _ _ R x Ix NV) in E. cbn [rbind] in E.
      destruct (check_constraints ck (nth (pos x) PC []) (set_mapped m (pos x) tl)) as [[|]| |] eqn:Q; cbn [rbind] in E; try discriminate E; injection E as <-; [|destruct I].
      destruct I as [<-|[]]. pose proof (rep_bind m V s x tl R Ix NV O) as R'.
      exists (upd_s s x (lst tl)). cbn [var_names]. split; auto. split.
      * intros y Iy. unfold upd_s. destruct (name_dec x y) as [->|]; [contradiction|auto].
      * split.
        -- cbn [inst]. unfold upd_s. destruct (name_dec x x); [|congruence]. apply alike_list_refl.
        -- split.
           ++ intros y [<-|[]] _ L. unfold upd_s. destruct (name_dec x x); [|congruence]. unfold lst. rewrite firstn_length. destruct O as [O1 _].
              rewrite One in * by (exact L). lia.
           ++ intros HQ y [<-|[]] _. eapply check_true; [exact R'| | |exact Q].
              ** apply Forall_forall. intros c Ic. apply (PCok HQ _ _ Ic).
              ** intros c Ic y Iy. destruct (PCok HQ _ _ Ic) as [Nc Lc]. apply in_or_app.
                 destruct (pos_order V x post y) as [K|K]; auto. { eapply named_in; eauto. } subst. right. left. auto.
  - pose proof (proj1 (named_op _ _ _) Np) as Nc. cbn [extend_matching] in E. destruct (N.eqb_spec (nl_size tl) 1) as [Z|Z]; [|injection E as <-; destruct I].
    destruct (vget (nl_nodes tl) 0) as [u| |] eqn:Eu; cbn [rbind] in E; try discriminate E.
    destruct u as [|?|op' tcs u]; [injection E as <-; destruct I|injection E as <-; destruct I|].
    destruct (Nat.eqb_spec (o_id op) (o_id op')) as [Q|Q]; [|injection E as <-; destruct I].
    cbn [var_names] in HW.
    assert (MS : machine_sized (NOp op' tcs u)). { destruct O as (_ & _ & F). rewrite Forall_forall in F. apply F. apply vget_nth in Eu. eapply nth_error_In; eauto. }
    destruct (machine_op _ _ _ MS) as [Sz Ms].
    rewrite mpl_spec in E; [|apply map_length|eapply ids_named; eauto].
    destruct (dfs tcs m cs []) as [pl| |] eqn:Ed; cbn [rbind] in E; try discriminate E.
    destruct (rflat_In _ _ _ _ _ _ E I) as (g & a & Ig & Ea & Ia). apply filter_In in Ig. destruct Ig as [Ig Fg].
    destruct (dfs_path cs tcs m Sz cs [] pl Ed) with (g' := g) as [Pg [Lg _]]; simpl; auto. simpl in Lg.
    destruct (path_sound cs tcs V post s m HW Nc R Sz Ms) with (g := g) (ms := a) (m' := m') as (s' & R' & A' & B' & F' & G'); auto.
    { rewrite Forall_forall in *. intros c Ic. apply IH; auto. }
    unfold final in Fg. apply N.eqb_eq in Fg. rewrite Lg, firstn_all in *. rewrite Fg in F'. rewrite Nat2N.id, firstn_all in F'.
    exists s'. cbn [var_names]. split; auto. split; auto. split; auto.
    rewrite (size1 tl _ Z Eu). cbn [inst]. constructor; [|constructor]. constructor; auto.
Qed.

(** ** Completeness *)
Section Complete.
Hypothesis HQ : QC.
Variable sg : assignment.
Definition like (V : list cstr) (s : assignment) : Prop := forall x, In x V -> Forall2 teq (sg x) (s x).
Hypothesis sg_cons : forall s', like W s' -> forall x, In x W -> Forall (holds ck s') (nth (pos x) PC []).

Lemma sg_refl_of : forall p, (forall l, Forall2 teq (inst sg p) l -> forall x, In x (var_names p) -> Forall2 teq (sg x) (sg x)).
Proof.
  induction p as [v t|x i t|op cs t IH] using node_ind'; intros l F y I.
  - destruct I.
  - destruct I as [<-|[]]. simpl in F. eapply teqs_trans; eauto using teqs_sym.
  - simpl in F. inversion F as [|? u ? ? T _]; subst. destruct u as [|?|op' ds u]; try discriminate T. apply teq_op in T. destruct T as [_ T].
    simpl in I. clear F. revert ds T. induction cs as [|c cs IHc]; intros ds T; [destruct I|].
    simpl in T. apply Forall2_app_inv_l in T. destruct T as (d1 & d2 & T1 & T2 & ->). inversion IH; subst.
    simpl in I. apply in_app_or in I. destruct I as [I|I]; eauto.
Qed.

Definition comp_at (p : node) : Prop := forall V post m s tl ms,
  W = V ++ var_names p ++ post -> rep m V s -> like V s -> (forall x, In x W -> Forall2 teq (sg x) (sg x)) ->
  okl tl -> fits sg p -> Forall2 teq (inst sg p) (lst tl) ->
  extend_matching ck pat p m tl = Ok ms ->
  exists m' s', In m' ms /\ rep m' (V ++ var_names p) s' /\ like (V ++ var_names p) s'.

Definition labs (l : list node) : list N := map (fun c => N.of_nat (List.length (inst sg c))) l.
Lemma rsum_labs : forall l g, (N.of_nat (List.length (flat_map (inst sg) l)) < 2 ^ 63)%N ->
  (rsum g + N.of_nat (List.length (flat_map (inst sg) l)) < 2 ^ 63)%N ->
  rsum (rev (labs l) ++ g) = (rsum g + N.of_nat (List.length (flat_map (inst sg) l)))%N.
Proof.
  induction l as [|c l IH] using rev_ind; intros g A B. { simpl. lia. }
  unfold labs in *. rewrite map_app, rev_app_distr. cbn [map rev app]. rewrite flat_map_app, app_length in *. cbn [flat_map] in *. rewrite app_nil_r in *.
  cbn [rsum]. rewrite IH by lia. rewrite add64_small; lia.
Qed.
Lemma one_inst : forall p, fits sg p -> ~ list_var p -> List.length (inst sg p) = 1.
Proof. intros [v t|x i t|op cs t] F N; auto. simpl. apply F; [left; auto|exact N]. Qed.

Section CParams.
Variables (cs tcs : list node) (V post : list cstr) (s0 : assignment) (m0 : matching).
Notation n := (N.of_nat (List.length tcs)).
Notation exts := (map (extend_matching ck pat) cs).
Hypothesis HW : W = V ++ flat_map var_names cs ++ post.
Hypothesis Hn : Forall named cs.
Hypothesis HR : rep m0 V s0.
Hypothesis Hsz : (n < 2 ^ 63)%N.
Hypothesis Hms : Forall machine_sized tcs.
Hypothesis Hlike : like V s0.
Hypothesis Hfit : Forall (fits sg) cs.
Hypothesis Hrefl : forall x, In x W -> Forall2 teq (sg x) (sg x).

Lemma right_label : forall p last s ls r, In p cs -> next_labels m0 p last n s = Ok ls ->
  (s + N.of_nat (List.length (inst sg p)) + r = n)%N -> (last = true -> r = 0%N) -> In (N.of_nat (List.length (inst sg p))) ls.
Proof.
  intros p last s ls r Ip E S La.
  assert (Np : named p) by (rewrite Forall_forall in Hn; auto). assert (Fp : fits sg p) by (rewrite Forall_forall in Hfit; auto).
  assert (NL : ~ list_var p -> (if (s <? n)%N then Ok [1%N] else Ok []) = Ok ls -> In (N.of_nat (List.length (inst sg p))) ls).
  { intros L Q. rewrite (one_inst p Fp L) in *. destruct (N.ltb_spec s n); [|lia]. injection Q as <-. left. reflexivity. }
  assert (U : unbound_labels last n s = Ok ls -> In (N.of_nat (List.length (inst sg p))) ls).
  { unfold unbound_labels. intros Q. destruct last.
    - injection Q as <-. left. rewrite La in S by auto. rewrite sub64_small by lia. lia.
    - rewrite sub64_small in Q by lia. rewrite !add64_small in Q by (try reflexivity; lia).
      destruct (n - s + 1 <=? n + 1)%N; [|discriminate Q]. injection Q as <-. apply in_map_iff. exists (List.length (inst sg p)). split; auto. apply in_seq. lia. }
  destruct p as [v t|x id t|op ds t]; try (apply NL; [intros []|exact E]).
  cbn [next_labels] in E. destruct (ceqb (hd NUL x) MATCHING_LIST_PREFIX) eqn:C.
  - destruct Np as [Ix ->]. unfold mapped in E. destruct (in_dec name_dec x V) as [IV|NV].
    + destruct (rp_in _ _ _ HR x IV) as [_ [lb [Q [Rd Sz]]]]. rewrite Q in E. cbn [rbind] in E.
      destruct (N.leb_spec (add64 s 1) n) as [K|K].
      * injection E as <-. left. apply read_ok in Rd. destruct Rd as [_ [_ ->]]. f_equal. symmetry. simpl. eapply Forall2_len. apply Hlike. auto.
      * apply U. exact E.
    + rewrite (rp_out _ _ _ HR x Ix NV) in E. cbn [rbind] in E. apply U. exact E.
  - apply NL; [|exact E]. intros L. apply is_list_name in L. congruence.
Qed.
Lemma right_path : forall ps g pl, dfs tcs m0 ps g = Ok pl -> incl ps cs ->
  (rsum g + N.of_nat (List.length (flat_map (inst sg) ps)) = n)%N -> In (rev (labs ps) ++ g) pl.
Proof.
  induction ps as [|p ps IH]; intros g pl E I S.
  - injection E as <-. left. reflexivity.
  - cbn [dfs] in E. destruct (next_labels m0 p (isnil ps) n (rsum g)) as [ls| |] eqn:Nl; cbn [rbind] in E; try discriminate E.
    cbn [flat_map] in S. rewrite app_length in S.
    assert (Il : In (N.of_nat (List.length (inst sg p))) ls).
    { eapply right_label with (r := N.of_nat (List.length (flat_map (inst sg) ps))); [|exact Nl| |]. { apply I. left. auto. } { lia. }
      intros Q. destruct ps; [reflexivity|discriminate Q]. }
    destruct (rflat_Ok _ _ _ _ _ _ E Il) as (a & Ea & Ia). cbn [labs map rev]. rewrite <- app_assoc. apply Ia. apply IH; auto.
    { intros y Iy. apply I. right. auto. } cbn [rsum app]. rewrite add64_small by lia. lia.
Qed.
Lemma path_complete : Forall comp_at cs -> Forall2 teq (flat_map (inst sg) cs) tcs ->
  forall pre rest ms, cs = pre ++ rest -> evr exts tcs m0 (rev (labs pre)) = Ok ms ->
  exists m' s', In m' ms /\ rep m' (V ++ flat_map var_names pre) s' /\ like (V ++ flat_map var_names pre) s'.
Proof.
  intros C T. induction pre as [|p pre IH] using rev_ind; intros rest ms Ecs E.
  - injection E as <-. exists m0, s0. simpl. rewrite app_nil_r. split; auto.
  - unfold labs in E. rewrite map_app, rev_app_distr in E. cbn [map rev app] in E. fold (labs pre) in E. cbn [evr] in E.
    destruct (evr exts tcs m0 (rev (labs pre))) as [ms1| |] eqn:E1; cbn [rbind] in E; try discriminate E.
    rewrite <- app_assoc in Ecs. cbn [app] in Ecs. destruct (IH (p :: rest) ms1 Ecs eq_refl) as (m1 & s1 & I1 & R1 & L1).
    assert (Lg : List.length (rev (labs pre)) = List.length pre). { unfold labs. rewrite rev_length, map_length. reflexivity. }
    assert (Ep : nth_error cs (List.length pre) = Some p). { rewrite Ecs, nth_error_app2, Nat.sub_diag by lia. reflexivity. }
    unfold ext_at in E. rewrite Lg in E. rewrite (vget_nth _ exts _ (extend_matching ck pat p)) in E || (rewrite (exts_nth cs _ _ Ep) in E). cbn [rbind] in E.
    destruct (rflat_Ok _ _ _ _ _ _ E I1) as (a & Ea & Ia).
    pose proof T as T0. rewrite Ecs, flat_map_app in T0. cbn [flat_map] in T0. apply Forall2_app_inv_l in T0. destruct T0 as (t1 & t23 & T1 & T23 & Et).
    apply Forall2_app_inv_l in T23. destruct T23 as (t2 & t3 & T2 & T3 & ->).
    pose proof (Forall2_len _ _ _ _ _ T1) as Len1. pose proof (Forall2_len _ _ _ _ _ T2) as Len2.
    assert (LT : List.length tcs = List.length t1 + (List.length t2 + List.length t3)) by (rewrite Et, !app_length; lia).
    assert (Rs : rsum (rev (labs pre)) = N.of_nat (List.length t1)).
    { rewrite <- (app_nil_r (rev (labs pre))), rsum_labs; cbn [rsum]; rewrite ?Len1; lia. }
    rewrite Rs in Ea. set (tl := mkNL _ _) in Ea.
    assert (Esk : skipn (N.to_nat (N.of_nat (List.length t1))) tcs = t2 ++ t3).
    { rewrite Nat2N.id, Et, skipn_app, skipn_all, Nat.sub_diag. reflexivity. }
    assert (El : lst tl = t2).
    { unfold lst, tl. cbn [nl_size nl_nodes]. rewrite Esk, Nat2N.id, Len2, firstn_app, firstn_all, Nat.sub_diag, app_nil_r. reflexivity. }
    assert (O : okl tl).
    { unfold okl, tl. cbn [nl_size nl_nodes]. rewrite Esk, app_length. split; [lia|]. split; [lia|].
      rewrite Et in Hms. apply Forall_app in Hms. apply Hms. }
    assert (Ipc : In p cs) by (eapply nth_error_In; eauto).
    rewrite Forall_forall in C, Hfit. specialize (C p Ipc).
    destruct (C (V ++ flat_map var_names pre) (flat_map var_names rest ++ post) m1 s1 tl a) as (m' & s' & I' & R' & L'); auto.
    { rewrite HW, Ecs, flat_map_app. cbn [flat_map]. rewrite <- !app_assoc. reflexivity. }
    { rewrite El. auto. }
    exists m', s'. split; auto. rewrite flat_map_app. cbn [flat_map]. rewrite app_nil_r, app_assoc. auto.
Qed.
End CParams.

Lemma ext_complete : forall p, named p -> comp_at p.
Proof.
  induction p as [v t|x i t|op cs t IH] using node_ind'; intros Np V post m s tl ms HW R L Hrefl O Fi T E.
  - cbn [extend_matching] in E. cbn [inst] in T. inversion T as [|? u ? r T1 T2 Q]; subst. inversion T2; subst.
    assert (Z : nl_size tl = 1%N). { pose proof (ok_read tl O) as K. apply read_ok in K. destruct K as [_ [_ K]]. rewrite <- H0 in K. exact K. }
    rewrite Z in E. cbn [N.eqb Pos.eqb] in E. assert (Eu : vget (nl_nodes tl) 0 = Ok u).
    { unfold lst in H0. rewrite Z in H0. simpl in H0. destruct (nl_nodes tl); [discriminate H0|]. injection H0 as ->. reflexivity. }
    rewrite Eu in E. cbn [rbind] in E. unfold teq in T1. rewrite T1 in E. injection E as <-.
    exists m, s. cbn [var_names]. rewrite app_nil_r. split; [left; auto|auto].
  - destruct Np as [Ix ->]. cbn [extend_matching] in E. cbn [inst] in T. unfold mapped in E. cbn [var_names] in *. destruct (in_dec name_dec x V) as [IV|NV].
    + destruct (rp_in _ _ _ R x IV) as [_ [l [El [Rl _]]]]. rewrite El in E. cbn [rbind] in E.
      assert (T2 : Forall2 teq (s x) (lst tl)). { eapply teqs_trans; [|exact T]. apply teqs_sym. apply L. auto. }
      apply read_ok in Rl. destruct Rl as (Q1 & Q2 & Q3). pose proof (Forall2_len _ _ _ _ _ T2) as Ln.
      pose proof (ok_read tl O) as K. apply read_ok in K. destruct K as (_ & K2 & K3).
      assert (EQ : nodelists_equal l tl = Ok true).
      { unfold nodelists_equal. rewrite Q3, K3, Ln, N.eqb_refl.
        destruct (equal_loop_ok (List.length (lst tl)) (nl_nodes l) (nl_nodes tl)) as [r [Er Fr]]; try lia.
        rewrite Er, Fr; auto. rewrite Q1 in T2. unfold lst in T2 at 1. rewrite Q3, Nat2N.id, Ln in T2. unfold lst in T2 at 2. rewrite K3, Nat2N.id in T2. exact T2. }
      rewrite EQ in E. cbn [rbind] in E. injection E as <-. exists m, s. split; [left; auto|]. split.
      * apply rep_incl with (V := V); auto. intros y. rewrite in_app_iff. simpl. split; auto. intros [H|[<-|[]]]; auto.
      * intros y Iy. apply L. apply in_app_or in Iy. destruct Iy as [H|[<-|[]]]; auto.
    + rewrite (rp_out _ _ _ R x Ix NV) in E. cbn [rbind] in E. pose proof (rep_bind m V s x tl R Ix NV O) as R'.
      assert (L' : like (V ++ [x]) (upd_s s x (lst tl))).
      { intros y Iy. unfold upd_s. destruct (name_dec x y) as [<-|Ne]; auto. apply in_app_or in Iy. destruct Iy as [Iy|[Iy|[]]]; [auto|contradiction]. }
      assert (Vars : forall c y, In c (nth (pos x) PC []) -> In y (var_names c) -> In y (V ++ [x])).
      { intros c y Ic Iy. destruct (PCok HQ _ _ Ic) as [Nc Lc]. apply in_or_app.
        destruct (pos_order V x post y) as [K|K]; auto. { eapply named_in; eauto. } subst. right. left. auto. }
      assert (CC : check_constraints ck (nth (pos x) PC []) (set_mapped m (pos x) tl) = Ok true).
      { eapply check_holds; [exact R'| | |].
        - apply Forall_forall. intros c Ic. apply (PCok HQ _ _ Ic).
        - intros c Ic y Iy. eapply Vars; eauto.
        - set (s2 := fun y => if in_dec name_dec y (V ++ [x]) then upd_s s x (lst tl) y else sg y).
          assert (L2 : like W s2). { intros y Iy. unfold s2. destruct (in_dec name_dec y (V ++ [x])); auto. }
          pose proof (sg_cons s2 L2 x Ix) as H. apply Forall_forall. intros c Ic. rewrite Forall_forall in H.
          apply holds_ext with (s := s2); auto. intros y Iy. unfold s2. destruct (in_dec name_dec y (V ++ [x])) as [|K]; auto. exfalso. apply K. eapply Vars; eauto. }
      rewrite CC in E. cbn [rbind] in E. injection E as <-. eexists _, _. split; [left; reflexivity|]. split; eauto.
  - pose proof (proj1 (named_op _ _ _) Np) as Nc. cbn [inst] in T. inversion T as [|? u ? r T1 T2 Q]; subst. inversion T2; subst. symmetry in H0.
    assert (Z : nl_size tl = 1%N). { pose proof (ok_read tl O) as K. apply read_ok in K. destruct K as [_ [_ K]]. rewrite H0 in K. exact K. }
    assert (Eu : vget (nl_nodes tl) 0 = Ok u).
    { unfold lst in H0. rewrite Z in H0. simpl in H0. destruct (nl_nodes tl); [discriminate H0|]. injection H0 as ->. reflexivity. }
    cbn [extend_matching] in E. rewrite Z in E. simpl in E. rewrite Eu in E. cbn [rbind] in E.
    destruct u as [|?|op' tcs u]; [discriminate T1|discriminate T1|]. apply teq_op in T1. destruct T1 as [Eo T1]. apply Nat.eqb_eq in Eo. rewrite Eo in E.
    assert (MS : machine_sized (NOp op' tcs u)). { destruct O as (_ & _ & F). rewrite Forall_forall in F. apply F. apply vget_nth in Eu. eapply nth_error_In; eauto. }
    destruct (machine_op _ _ _ MS) as [Sz Ms]. cbn [var_names] in *.
    rewrite mpl_spec in E; [|apply map_length|eapply ids_named; eauto].
    destruct (dfs tcs m cs []) as [pl| |] eqn:Ed; cbn [rbind] in E; try discriminate E.
    assert (Hfit : Forall (fits sg) cs). { apply Forall_forall. intros c Ic x Ix. apply Fi. simpl. apply in_flat_map. eauto. }
    pose proof (Forall2_len _ _ _ _ _ T1) as Ln.
    assert (Ip : In (rev (labs cs)) pl).
    { rewrite <- (app_nil_r (rev (labs cs))). eapply right_path with (cs := cs); eauto using incl_refl. cbn [rsum]. rewrite Ln. lia. }
    assert (Fg : final tcs (rev (labs cs)) = true).
    { unfold final. apply N.eqb_eq. rewrite <- (app_nil_r (rev (labs cs))), rsum_labs; cbn [rsum]; rewrite ?Ln; lia. }
    destruct (rflat_Ok _ _ _ _ _ _ E (proj2 (filter_In _ _ _) (conj Ip Fg))) as (a & Ea & Ia).
    destruct (path_complete cs tcs V post s m HW R Sz Ms L Hfit Hrefl) with (pre := cs) (rest := @nil node) (ms := a) as (m' & s' & I' & R' & L'); auto.
    { rewrite Forall_forall in *. intros c Ic. apply IH; auto. }
    { rewrite app_nil_r. auto. }
    exists m', s'. split; auto.
Qed.
End Complete.

(** ** Memory safety *)
Section Safe.
Hypothesis HQ : QC.
Hypothesis ans : forall s' x c, In x W -> In c (nth (pos x) PC []) ->
  (forall y, In y (var_names c) -> ~ list_name y -> List.length (s' y) = 1) -> exists t b, inst s' c = [t] /\ ck t = Ok b.

Definition fitted (V : list cstr) (s : assignment) : Prop := forall x, In x V -> ~ list_name x -> List.length (s x) = 1.
Definition safe_at (p : node) : Prop := forall V post m s tl,
  W = V ++ var_names p ++ post -> rep m V s -> fitted V s -> okl tl -> (~ list_var p -> nl_size tl = 1%N) ->
  no_overrun V p -> exists ms, extend_matching ck pat p m tl = Ok ms.

Lemma no_overrun_op : forall op cs t V, no_overrun V (NOp op cs t) ->
  no_reuse V cs /\ forall d p, nth_error cs d = Some p -> no_overrun (V ++ flat_map var_names (firstn d cs)) p.
Proof.
  intros op cs t V [A B]. split; auto. clear A t op. revert V B. induction cs as [|c cs IH]; intros V B d p E. { destruct d; discriminate E. }
  destruct B as [B1 B2]. destruct d as [|d]; simpl in E.
  - injection E as <-. simpl. rewrite app_nil_r. auto.
  - simpl. rewrite app_assoc. apply IH; auto.
Qed.
Lemma no_reuse_nth : forall V cs d x i t b, no_reuse V cs -> nth_error cs d = Some (NVar x i t) -> nth_error cs (S d) = Some b ->
  list_name x -> In x V -> ~ list_var b.
Proof.
  intros V. induction cs as [|a cs IH]; intros d x i t b N E1 E2 L I. { destruct d; discriminate E1. }
  destruct cs as [|b0 cs]. { destruct d as [|[|d]]; discriminate E2. }
  destruct N as [N1 N2]. destruct d as [|d].
  - simpl in E1, E2. injection E1 as ->. injection E2 as <-. auto.
  - eapply IH; eauto.
Qed.

Section SParams.
Variables (cs tcs : list node) (V post : list cstr) (s0 : assignment) (m0 : matching).
Notation n := (N.of_nat (List.length tcs)).
Notation exts := (map (extend_matching ck pat) cs).
Hypothesis HW : W = V ++ flat_map var_names cs ++ post.
Hypothesis Hn : Forall named cs.
Hypothesis HR : rep m0 V s0.
Hypothesis Hsz : (n < 2 ^ 63)%N.
Hypothesis Hms : Forall machine_sized tcs.
Hypothesis Hfit : fitted V s0.
Hypothesis Hno : no_reuse V cs.
Hypothesis Hov : forall d p, nth_error cs d = Some p -> no_overrun (V ++ flat_map var_names (firstn d cs)) p.

Lemma over_nonlist : forall p last s, ~ list_var p -> (n < s)%N -> next_labels m0 p last n s = Ok [].
Proof.
  intros p last s L H.
  assert ((if (s <? n)%N then Ok [1%N] else Ok []) = @Ok (list N) []) as Q by (destruct (N.ltb_spec s n); [lia|auto]).
  destruct p as [v t|x id t|op ds t]; try exact Q. cbn [next_labels]. destruct (ceqb (hd NUL x) MATCHING_LIST_PREFIX) eqn:C; auto.
  exfalso. apply L. apply is_list_name. auto.
Qed.
Lemma under_ok : forall p last s, In p cs -> (s <= n)%N -> exists ls, next_labels m0 p last n s = Ok ls.
Proof.
  intros p last s I H.
  assert (Np : named p) by (rewrite Forall_forall in Hn; auto).
  assert (U : exists ls, unbound_labels last n s = Ok ls).
  { unfold unbound_labels. destruct last; eauto. rewrite sub64_small, !add64_small by (try reflexivity; lia).
    destruct (N.leb_spec (n - s + 1) (n + 1)); [eauto|lia]. }
  assert (Q : exists ls, (if (s <? n)%N then Ok [1%N] else Ok []) = @Ok (list N) ls) by (destruct (s <? n)%N; eauto).
  destruct p as [v t|x id t|op ds t]; try exact Q. cbn [next_labels]. destruct (ceqb (hd NUL x) MATCHING_LIST_PREFIX) eqn:C; auto.
  destruct Np as [Ix ->]. unfold mapped. destruct (in_dec name_dec x V) as [IV|NV].
  - destruct (rp_in _ _ _ HR x IV) as [_ [lb [E _]]]. rewrite E. cbn [rbind]. destruct (add64 s 1 <=? n)%N; eauto.
  - rewrite (rp_out _ _ _ HR x Ix NV). cbn [rbind]. auto.
Qed.
Definition steady (g : list N) : Prop := (rsum g <= n)%N \/ ((n < rsum g)%N /\ forall p, nth_error cs (List.length g) = Some p -> ~ list_var p).
Lemma path_steady : forall g, path_ok cs tcs m0 g -> steady g.
Proof.
  induction g as [|l g IH]; intros P. { left. simpl. lia. }
  destruct P as [P (p & ls & Ep & El & Il)]. specialize (IH P). destruct IH as [Le|[Gt Nx]].
  - assert (Np : named p). { rewrite Forall_forall in Hn. apply Hn. eapply nth_error_In; eauto. }
    destruct (next_labels_spec m0 V s0 p _ n (rsum g) ls l HR Np Le Hsz El Il) as [[A B]|(x & id & t & lb & -> & LN & IV & Q & El2 & Ov & Sm)].
    + left. cbn [rsum]. rewrite add64_small; lia.
    + right. cbn [rsum]. rewrite add64_small by lia. split; auto. intros b Eb. eapply no_reuse_nth; eauto.
  - rewrite over_nonlist in El by auto. injection El as <-. destruct Il.
Qed.
Lemma path_under : forall l g, path_ok cs tcs m0 (l :: g) -> (rsum g <= n)%N.
Proof.
  intros l g [P (p & ls & Ep & El & Il)]. destruct (path_steady g P) as [|[Gt Nx]]; auto.
  rewrite over_nonlist in El by auto. injection El as <-. destruct Il.
Qed.
Lemma dfs_ok : forall ps g, skipn (List.length g) cs = ps -> path_ok cs tcs m0 g -> exists pl, dfs tcs m0 ps g = Ok pl.
Proof.
  induction ps as [|p ps IH]; intros g Q P. { exists [g]. reflexivity. }
  cbn [dfs].
  assert (Ep : nth_error cs (List.length g) = Some p). { replace (List.length g) with (List.length g + 0) by lia. rewrite <- nth_skipn, Q. reflexivity. }
  assert (exists ls, next_labels m0 p (isnil ps) n (rsum g) = Ok ls) as [ls El].
  { destruct (path_steady g P) as [Le|[Gt Nx]]. { apply under_ok; auto. eapply nth_error_In; eauto. } rewrite over_nonlist; eauto. }
  rewrite El. cbn [rbind]. apply rflat_all. intros l Il.
  assert (Es : skipn (List.length (l :: g)) cs = ps). { pose proof (skipn_nth _ _ _ _ Ep) as K. rewrite Q in K. injection K as K. auto. }
  assert (Lt : List.length g < List.length cs) by (apply nth_error_Some; congruence).
  apply IH; auto. split; auto. exists p, ls. split; auto. split; auto. rewrite <- isnil_last by auto. rewrite <- El. f_equal. f_equal. exact Es.
Qed.
Lemma evr_ok : Forall safe_at cs -> forall g, path_ok cs tcs m0 g -> (rsum g <= n)%N -> exists ms, evr exts tcs m0 g = Ok ms.
Proof.
  intros S. induction g as [|l g IH]; intros P Le. { eexists. reflexivity. }
  pose proof (path_under l g P) as Le1. destruct P as [P (p & ls & Ep & El & Il)].
  destruct (IH P Le1) as [ms1 E1]. cbn [evr]. rewrite E1. cbn [rbind]. unfold ext_at. rewrite (exts_nth cs _ _ Ep). cbn [rbind].
  apply rflat_all. intros m1 I1.
  assert (Np : named p). { rewrite Forall_forall in Hn. apply Hn. eapply nth_error_In; eauto. }
  destruct (path_sound cs tcs V post s0 m0 HW Hn HR Hsz Hms) with (g := g) (ms := ms1) (m' := m1) as (s1 & R1 & A1 & B1 & F1 & G1); auto.
  { apply Forall_forall. intros c Ic. apply ext_sound. rewrite Forall_forall in Hn. auto. }
  assert (Lb : (rsum g + l <= n)%N /\ (~ list_var p -> l = 1%N)).
  { destruct (next_labels_spec m0 V s0 p _ n (rsum g) ls l HR Np Le1 Hsz El Il) as [A|(x & id & t & lb & -> & LN & IV & Q & El2 & Ov & Sm)]; auto.
    cbn [rsum] in Le. rewrite add64_small in Le by lia. lia. }
  destruct Lb as [Lb One]. rewrite Forall_forall in S. eapply (S p); eauto using nth_error_In.
  - eapply split_W with (post := post); eauto.
  - intros x Ix L. destruct (in_dec name_dec x V) as [IV|NV]. { rewrite A1; auto. }
    apply in_app_or in Ix. destruct Ix as [|Ix]; [contradiction|]. apply (proj1 G1); auto.
  - unfold okl. cbn [nl_size nl_nodes]. rewrite skipn_length. split; [lia|]. split; [lia|]. apply Forall_forall. intros y Iy. rewrite Forall_forall in Hms. apply Hms. eapply skipn_incl; eauto.
Qed.
End SParams.

Lemma ext_safe : forall p, named p -> safe_at p.
Proof.
  induction p as [v t|x i t|op cs t IH] using node_ind'; intros Np V post m s tl HW R Hf O One Ov.
  - cbn [extend_matching]. rewrite One by (intros []). cbn [N.eqb Pos.eqb]. destruct (nl_nodes tl) eqn:E. { destruct O as [O _]. rewrite E, One in O by (intros []). simpl in O. lia. }
    unfold vget. cbn [nth_error rbind]. destruct (tree_equals (NConst v t) n); eauto.
  - destruct Np as [Ix ->]. cbn [extend_matching]. unfold mapped. destruct (in_dec name_dec x V) as [IV|NV].
    + destruct (rp_in _ _ _ R x IV) as [_ [l [El [Rl _]]]]. rewrite El. cbn [rbind]. unfold nodelists_equal.
      destruct (N.eqb_spec (nl_size l) (nl_size tl)) as [Q|Q]; cbn [rbind]; eauto.
      apply read_ok in Rl. destruct Rl as (_ & Q2 & _). destruct O as (O1 & _). rewrite <- (N2Nat.id (nl_size l)).
      destruct (equal_loop_ok (N.to_nat (nl_size l)) (nl_nodes l) (nl_nodes tl)) as [r [Er _]]; try lia. rewrite Er. cbn [rbind]. destruct r; eauto.
    + rewrite (rp_out _ _ _ R x Ix NV). cbn [rbind]. pose proof (rep_bind m V s x tl R Ix NV O) as R'.
      assert (Vars : forall c y, In c (nth (pos x) PC []) -> In y (var_names c) -> In y (V ++ [x])).
      { intros c y Ic Iy. destruct (PCok HQ _ _ Ic) as [Nc Lc]. apply in_or_app. cbn [var_names] in HW.
        destruct (pos_order V x post y) as [K|K]; auto. { eapply named_in; eauto. } subst. right. left. auto. }
      assert (exists b, check_constraints ck (nth (pos x) PC []) (set_mapped m (pos x) tl) = Ok b) as [b Eb].
      { assert (H : forall l, incl l (nth (pos x) PC []) -> exists b, check_constraints ck l (set_mapped m (pos x) tl) = Ok b).
        { induction l as [|c l IHl]; intros Il. { eexists. reflexivity. }
          assert (Ic : In c (nth (pos x) PC [])) by (apply Il; left; auto).
          cbn [check_constraints]. rewrite tree_copy_id. rewrite (transform_rep _ _ _ c R').
          - destruct (ans (upd_s s x (lst tl)) x c Ix Ic) as (u & b & Eu & Ck).
            { intros y Iy Ly. unfold upd_s. destruct (name_dec x y) as [<-|Ne].
              - unfold lst. rewrite firstn_length. destruct O as [O1 _]. rewrite One in * by exact Ly. lia.
              - apply Hf; auto. specialize (Vars c y Ic Iy). apply in_app_or in Vars. destruct Vars as [K|[K|[]]]; [auto|contradiction]. }
            rewrite Eu. cbn [rbind]. rewrite Ck. cbn [rbind]. destruct b; eauto. apply IHl. intros z Iz. apply Il. right. auto.
          - apply (PCok HQ _ _ Ic).
          - intros y Iy. eapply Vars; eauto. }
        apply H. apply incl_refl. }
      rewrite Eb. cbn [rbind]. destruct b; eauto.
  - pose proof (proj1 (named_op _ _ _) Np) as Nc. cbn [extend_matching]. rewrite One by (intros []). cbn [N.eqb Pos.eqb].
    destruct (nl_nodes tl) as [|u r] eqn:E. { destruct O as [O _]. rewrite E, One in O by (intros []). simpl in O. lia. }
    unfold vget. cbn [nth_error rbind]. destruct u as [|?|op' tcs u]; eauto.
    destruct (o_id op =? o_id op'); eauto.
    assert (MS : machine_sized (NOp op' tcs u)). { destruct O as (_ & _ & F). rewrite E in F. inversion F; auto. }
    destruct (machine_op _ _ _ MS) as [Sz Ms]. cbn [var_names] in HW. destruct (no_overrun_op _ _ _ _ Ov) as [Nr No].
    rewrite mpl_spec; [|apply map_length|eapply ids_named; eauto].
    destruct (dfs_ok cs tcs V s m Nc R Sz Nr cs [] eq_refl I) as [pl Ed]. rewrite Ed. cbn [rbind].
    apply rflat_all. intros g Ig. apply filter_In in Ig. destruct Ig as [Ig Fg].
    destruct (dfs_path cs tcs m Sz cs [] pl Ed) with (g' := g) as [Pg [Lg _]]; simpl; auto.
    eapply evr_ok; eauto.
    + rewrite Forall_forall in *. intros c Ic. apply IH; auto.
    + unfold final in Fg. apply N.eqb_eq in Fg. lia.
Qed.
End Safe.
End Sem.
