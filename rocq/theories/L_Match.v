(** The suffix vector of match_parameter_lists computes a depth first enumeration. *)
From Coq Require Import List Ascii String NArith ZArith Bool Lia Arith.
From Verif Require Import M_Base M_Tree M_TreeUtil M_Match S_Tree S_Match L_Tree.
Import ListNotations.
Open Scope nat_scope.
Open Scope res_scope.

Fixpoint rflat {A B} (f : A -> res (list B)) (l : list A) : res (list B) :=
  match l with [] => Ok [] | x :: l' => a <- f x ;; b <- rflat f l' ;; Ok (a ++ b) end.
Lemma rflat_app : forall A B (f : A -> res (list B)) l k,
  rflat f (l ++ k) = (a <- rflat f l ;; b <- rflat f k ;; Ok (a ++ b)).
Proof.
  induction l as [|x l IH]; intros k; simpl.
  - destruct (rflat f k); reflexivity.
  - destruct (f x); simpl; auto. rewrite IH. destruct (rflat f l); simpl; auto. destruct (rflat f k); simpl; auto.
    rewrite app_assoc. reflexivity.
Qed.
Lemma rflat_map : forall A B C (g : C -> A) (f : A -> res (list B)) l, rflat f (map g l) = rflat (fun c => f (g c)) l.
Proof. induction l as [|x l IH]; simpl; auto. rewrite IH. reflexivity. Qed.
Lemma rflat_ext : forall A B (f g : A -> res (list B)) l, (forall x, In x l -> f x = g x) -> rflat f l = rflat g l.
Proof. induction l as [|x l IH]; simpl; intros E; auto. rewrite E, IH by auto. reflexivity. Qed.
Lemma rflat_In : forall A B (f : A -> res (list B)) l r y, rflat f l = Ok r -> In y r -> exists x a, In x l /\ f x = Ok a /\ In y a.
Proof.
  induction l as [|x l IH]; simpl; intros r y E I. { injection E as <-. destruct I. }
  destruct (f x) as [a| |] eqn:F; simpl in E; try discriminate E. destruct (rflat f l) as [b| |]; simpl in E; try discriminate E.
  injection E as <-. apply in_app_or in I. destruct I as [I|I]. { exists x, a. auto. }
  destruct (IH b y eq_refl I) as (x' & a' & I' & F' & Iy). exists x', a'. auto.
Qed.
Lemma rflat_Ok : forall A B (f : A -> res (list B)) l r x, rflat f l = Ok r -> In x l -> exists a, f x = Ok a /\ incl a r.
Proof.
  induction l as [|z l IH]; simpl; intros r x E I. { destruct I. }
  destruct (f z) as [a| |] eqn:F; simpl in E; try discriminate E. destruct (rflat f l) as [b| |]; simpl in E; try discriminate E.
  injection E as <-. destruct I as [->|I]. { exists a. split; auto. apply incl_appl. apply incl_refl. }
  destruct (IH b x eq_refl I) as (a' & F' & Iy). exists a'. split; auto. apply incl_appr. auto.
Qed.
Lemma rflat_all : forall A B (f : A -> res (list B)) l, (forall x, In x l -> exists a, f x = Ok a) -> exists r, rflat f l = Ok r.
Proof.
  induction l as [|x l IH]; simpl; intros F; eauto. destruct (F x) as [a E]; auto. rewrite E. simpl.
  destruct IH as [r ->]; auto. simpl. eauto.
Qed.

Lemma vget_nth : forall A (l : list A) i x, vget l i = Ok x <-> nth_error l i = Some x.
Proof. unfold vget. intros A l i x. destruct (nth_error l i); split; intros E; congruence. Qed.
Lemma vset_length : forall A (l : list A) i x, List.length (vset l i x) = List.length l.
Proof. induction l as [|y l IH]; intros [|i] x; simpl; auto. Qed.
Lemma vset_nth : forall A (l : list A) i x j, nth_error (vset l i x) j =
  if (j =? i)%nat then match nth_error l i with Some _ => Some x | None => None end else nth_error l j.
Proof.
  induction l as [|y l IH]; intros [|i] x [|j]; simpl; auto.
  - destruct (j =? i); reflexivity.
Qed.

Section MPLproof.
Variable exts : list (matching -> nodelist -> res (list matching)).
Variable pcs : list node.
Variable tcs : list node.
Variable m0 : matching.
Hypothesis LE : List.length exts = List.length pcs.
Notation n := (N.of_nat (List.length tcs)).

Fixpoint rsum (g : list N) : N := match g with [] => 0%N | l :: g' => add64 (rsum g') l end.

Definition ext_at (d : nat) (l s : N) (ms : list matching) : res (list matching) :=
  e <- vget exts d ;; rflat (fun m => e m (mkNL l (skipn (N.to_nat s) tcs))) ms.
Fixpoint evr (g : list N) : res (list matching) :=
  match g with
  | [] => Ok [m0]
  | l :: g' => ms <- evr g' ;; ext_at (List.length g') l (rsum g') ms
  end.

Definition isnil {A} (l : list A) : bool := match l with [] => true | _ => false end.
Fixpoint dfs (ps : list node) (g : list N) : res (list (list N)) :=
  match ps with
  | [] => Ok [g]
  | p :: ps' => ls <- next_labels m0 p (isnil ps') n (rsum g) ;; rflat (fun l => dfs ps' (l :: g)) ls
  end.
Definition D (g : list N) := dfs (skipn (List.length g) pcs) g.
Definition T (g : list N) := suffix_count m0 (skipn (List.length g) pcs) n (rsum g).
Definition final (g : list N) : bool := (rsum g =? n)%N.

(** ** fill_suffix *)
Definition slice (loc : list matching) (a k : nat) : list matching := firstn k (skipn a loc).
Record inv (sfx : list snode) (G : list (list N)) (loc : list matching) : Prop := {
  iv_len : List.length G = List.length sfx;
  iv_pos : forall i s g, nth_error sfx i = Some s -> nth_error G i = Some g ->
     sn_dist s = List.length g /\ add64 (sn_sum s) (sn_label s) = rsum g /\
     (i = 0 -> g = [] /\ exists a, sn_first s = Some a) /\
     (0 < i -> sn_parent s < i /\ exists gp, nth_error G (sn_parent s) = Some gp /\ g = sn_label s :: gp /\ sn_sum s = rsum gp) /\
     (forall a, sn_first s = Some a -> a + sn_num s <= List.length loc /\ evr g = Ok (slice loc a (sn_num s))) }.

Lemma slice_app : forall loc new a k, a + k <= List.length loc -> slice (loc ++ new) a k = slice loc a k.
Proof.
  intros loc new a k H. unfold slice. rewrite skipn_app. rewrite firstn_app. rewrite skipn_length.
  replace (k - (List.length loc - a)) with 0 by lia. rewrite firstn_O, app_nil_r. reflexivity.
Qed.
Lemma slice_cons : forall loc a k m, nth_error loc a = Some m -> slice loc a (S k) = m :: slice loc (S a) k.
Proof.
  unfold slice. intros loc a k m E. revert a E. induction loc as [|y loc IH]; intros [|a] E; simpl in *; try discriminate E.
  - injection E as ->. reflexivity.
  - rewrite <- IH; auto.
Qed.
Lemma fill_loop_spec : forall ext k i first loc, first + i + k <= List.length loc ->
  fill_loop ext k i first loc = (new <- rflat ext (slice loc (first + i) k) ;; Ok (loc ++ new)).
Proof.
  intros ext. induction k as [|k IH]; intros i first loc H.
  - simpl. rewrite app_nil_r. reflexivity.
  - destruct (nth_error loc (first + i)) as [m|] eqn:E.
    2:{ apply nth_error_None in E. lia. }
    rewrite (slice_cons _ _ _ _ E). simpl. unfold vget at 1. rewrite E. simpl.
    destruct (ext m) as [new| |]; simpl; auto.
    rewrite IH by (rewrite app_length; lia).
    rewrite slice_app by lia. replace (first + S i) with (S (first + i)) by lia.
    destruct (rflat ext (slice loc (S (first + i)) k)); simpl; auto. rewrite app_assoc. reflexivity.
Qed.

(** What changes: nodes keep their place in the tree, filled nodes stay, and a node that becomes filled
    is [i] itself or nearer to the root. *)
Definition grown (i : nat) (sfx sfx' : list snode) : Prop :=
  List.length sfx' = List.length sfx /\
  forall j s, nth_error sfx j = Some s -> exists s', nth_error sfx' j = Some s' /\
    sn_label s' = sn_label s /\ sn_sum s' = sn_sum s /\ sn_dist s' = sn_dist s /\ sn_parent s' = sn_parent s /\
    (i < j -> s' = s) /\ (sn_first s <> None -> s' = s).
Lemma grown_refl : forall i sfx, grown i sfx sfx.
Proof. intros i sfx. split; auto. intros j s E. exists s. auto 10. Qed.

Lemma fill_spec : forall fuel i sfx G loc g, inv sfx G loc -> nth_error G i = Some g -> i < fuel ->
  match evr g with
  | Ok ms => exists sfx' loc' s', fill_suffix exts tcs fuel i sfx loc = Ok (sfx', loc') /\ inv sfx' G loc' /\
      grown i sfx sfx' /\ nth_error sfx' i = Some s' /\
      exists a, sn_first s' = Some a /\ slice loc' a (sn_num s') = ms /\
        (forall s, nth_error sfx i = Some s -> sn_first s = None -> a + sn_num s' = List.length loc')
  | Ub => fill_suffix exts tcs fuel i sfx loc = Ub
  | Halt => fill_suffix exts tcs fuel i sfx loc = Halt
  end.
Proof.
  induction fuel as [|f IH]; intros i sfx G loc g I Eg Hf. { lia. }
  assert (Li : i < List.length sfx). { rewrite <- (iv_len _ _ _ I). apply nth_error_Some. congruence. }
  destruct (nth_error sfx i) as [s|] eqn:Es. 2:{ apply nth_error_None in Es. lia. }
  destruct (iv_pos _ _ _ I i s g Es Eg) as (Hd & Hs & H0 & Hp & Hfill).
  assert (FE : fill_suffix exts tcs (S f) i sfx loc =
    match sn_first s with
    | Some _ => Ok (sfx, loc)
    | None =>
      '(sfx1, loc1) <- fill_suffix exts tcs f (sn_parent s) sfx loc ;;
      par <- vget sfx1 (sn_parent s) ;;
      match sn_first par with
      | None => Ub
      | Some pf =>
        ext <- vget exts (sn_dist s - 1) ;;
        loc2 <- fill_loop (fun m => ext m (mkNL (sn_label s) (skipn (N.to_nat (sn_sum s)) tcs)))
                  (sn_num par) 0 pf loc1 ;;
        Ok (vset sfx1 i
              (mkSN (Some (List.length loc1)) (List.length loc2 - List.length loc1)
                 (sn_label s) (sn_sum s) (sn_dist s) (sn_parent s)), loc2)
      end
    end).
  { cbn [fill_suffix]. unfold vget at 1. rewrite Es. reflexivity. }
  rewrite FE. clear FE.
  destruct (sn_first s) as [a|] eqn:Ef.
  - destruct (Hfill a eq_refl) as [Ha Hev]. rewrite Hev.
    exists sfx, loc, s. split; [reflexivity|]. split; [exact I|]. split; [apply grown_refl|]. split; [exact Es|].
    exists a. split; auto. split; auto. intros s2 E2 N2. congruence.
  - assert (i <> 0) as Hi. { intros ->. destruct (H0 eq_refl) as [_ [a Ha]]. discriminate Ha. }
    destruct Hp as [Hpi [gp [Egp [Hg Hsum]]]]; [lia|].
    specialize (IH (sn_parent s) sfx G loc gp I Egp ltac:(lia)).
    subst g. cbn [evr]. destruct (evr gp) as [pms| |] eqn:Ev; [|rewrite IH; reflexivity|rewrite IH; reflexivity].
    destruct IH as (sfx1 & loc1 & ps & E1 & I1 & G1 & Ep & pa & Efp & Sl & _). rewrite E1. cbn [rbind].
    assert (VE : vget sfx1 (sn_parent s) = Ok ps) by (apply vget_nth; auto).
    rewrite VE. cbn [rbind]. rewrite Efp.
    unfold ext_at. cbn [List.length] in Hd. rewrite Hd. replace (S (List.length gp) - 1) with (List.length gp) by lia.
    destruct (vget exts (List.length gp)) as [e| |] eqn:Ee; cbn [rbind]; auto.
    assert (Hpa : pa + sn_num ps <= List.length loc1).
    { destruct (iv_pos _ _ _ I1 _ ps gp Ep Egp) as (_ & _ & _ & _ & Q). apply Q. auto. }
    rewrite fill_loop_spec by lia. rewrite Nat.add_0_r, Sl, Hsum.
    destruct (rflat (fun m => e m {| nl_size := sn_label s; nl_nodes := skipn (N.to_nat (rsum gp)) tcs |}) pms) as [new| |] eqn:En; cbn [rbind]; auto.
    destruct G1 as [GL G1]. destruct (G1 i s Es) as (s1 & Es1 & P1 & P2 & P3 & P4 & P5 & _).
    assert (s1 = s) by (apply P5; lia). subst s1.
    assert (Hnew : evr (sn_label s :: gp) = Ok new).
    { cbn [evr]. rewrite Ev. cbn [rbind]. unfold ext_at. rewrite Ee. cbn [rbind]. exact En. }
    assert (Hsl : slice (loc1 ++ new) (List.length loc1) (List.length (loc1 ++ new) - List.length loc1) = new).
    { unfold slice. rewrite skipn_app, skipn_all, Nat.sub_diag, app_length. simpl.
      replace (List.length loc1 + List.length new - List.length loc1) with (List.length new) by lia. apply firstn_all. }
    set (ns := mkSN (Some (List.length loc1)) (List.length (loc1 ++ new) - List.length loc1) (sn_label s) (rsum gp) (S (List.length gp)) (sn_parent s)).
    exists (vset sfx1 i ns), (loc1 ++ new), ns. split; [reflexivity|]. split; [|split; [|split]].
    + constructor.
      * rewrite vset_length. apply (iv_len _ _ _ I1).
      * intros j sj gj Ej EGj. rewrite vset_nth in Ej. destruct (Nat.eqb_spec j i) as [->|Nj].
        -- rewrite Es1 in Ej. injection Ej as <-. rewrite Eg in EGj. injection EGj as <-. unfold ns; cbn [sn_dist sn_sum sn_label sn_first sn_num sn_parent].
           split; auto. split. { rewrite <- Hs, Hsum. reflexivity. } split; [intros; lia|]. split. { intros _. split; auto. exists gp. auto. }
           intros a Ea. injection Ea as <-. split. { rewrite app_length. lia. }
           rewrite Hsl. exact Hnew.
        -- destruct (iv_pos _ _ _ I1 j sj gj Ej EGj) as (Q1 & Q2 & Q3 & Q4 & Q5).
           split; [exact Q1|]. split; [exact Q2|]. split; [exact Q3|]. split; [exact Q4|].
           intros a Ea. destruct (Q5 a Ea) as [W E]. rewrite app_length. split; [lia|]. rewrite slice_app; auto.
    + split. { rewrite vset_length. auto. }
      intros j sj Ej. rewrite vset_nth. destruct (Nat.eqb_spec j i) as [->|Nj].
      * rewrite Es1. exists ns. rewrite Es in Ej. injection Ej as <-. unfold ns; cbn [sn_dist sn_sum sn_label sn_first sn_num sn_parent].
        repeat split; auto; try lia; congruence.
      * destruct (G1 j sj Ej) as (sj' & A1 & A2 & A3 & A4 & A5 & A6 & A7). exists sj'. repeat split; auto. intros Hj. apply A6. lia.
    + rewrite vset_nth, Nat.eqb_refl, Es1. reflexivity.
    + exists (List.length loc1). split; [reflexivity|]. split; [exact Hsl|].
      intros _ _ _. unfold ns; cbn [sn_num]. rewrite app_length. lia.
Qed.

(** ** The loop *)
Hypothesis ids_ok : forall p, In p pcs -> match p with NVar _ id _ => id < List.length m0 | _ => True end.
Lemma next_no_ub : forall p last s, In p pcs -> next_labels m0 p last n s <> Ub.
Proof.
  assert (U : forall last s, unbound_labels last n s <> Ub).
  { intros last s. unfold unbound_labels. destruct last; [discriminate|]. destruct (_ <=? _)%N; discriminate. }
  intros p last s I. unfold next_labels. specialize (ids_ok p I). destruct p as [v t|x id t|op cs t].
  - destruct (_ <? _)%N; discriminate.
  - destruct (ceqb _ _).
    + unfold mapped. destruct (nth_error m0 id) as [[l|]|] eqn:E; simpl; auto.
      * destruct (_ <=? _)%N; auto. discriminate.
      * apply nth_error_None in E. lia.
    + destruct (_ <? _)%N; discriminate.
  - destruct (_ <? _)%N; discriminate.
Qed.
Lemma rflat_no_ub : forall A B (f : A -> res (list B)) l, (forall x, In x l -> f x <> Ub) -> rflat f l <> Ub.
Proof.
  induction l as [|x l IH]; simpl; intros F. { discriminate. }
  specialize (F x) as Fx. destruct (f x); simpl; auto; try discriminate. destruct (rflat f l); simpl; auto; discriminate.
Qed.
Lemma dfs_no_ub : forall ps g, incl ps pcs -> dfs ps g <> Ub.
Proof.
  induction ps as [|p ps IH]; intros g I; simpl. { discriminate. }
  pose proof (next_no_ub p (isnil ps) (rsum g) (I p (or_introl eq_refl))) as U.
  destruct (next_labels m0 p (isnil ps) n (rsum g)) as [ls| |]; simpl; auto; try discriminate.
  apply rflat_no_ub. intros l _. apply IH. intros y Iy. apply I. right. auto.
Qed.
Lemma skipn_incl : forall A k (l : list A), incl (skipn k l) l.
Proof. intros A. induction k as [|k IH]; intros [|x l] y I; simpl in *; auto. right. apply IH. auto. Qed.
Lemma D_no_ub : forall g, D g <> Ub.
Proof. intros g. apply dfs_no_ub. apply skipn_incl. Qed.
Lemma skipn_nth : forall A (l : list A) d x, nth_error l d = Some x -> skipn d l = x :: skipn (S d) l.
Proof. induction l as [|y l IH]; intros [|d] x E; simpl in *; try discriminate E; auto. injection E as ->. auto. Qed.
Lemma isnil_last : forall A (l : list A) d, d < List.length l -> isnil (skipn (S d) l) = (d =? List.length l - 1).
Proof.
  clear. intros A l d H. destruct (Nat.eqb_spec d (List.length l - 1)) as [E|E].
  - rewrite skipn_all2; auto. lia.
  - assert (List.length (skipn (S d) l) <> 0). { rewrite skipn_length. lia. }
    destruct (skipn (S d) l); auto. simpl in H0. lia.
Qed.
Lemma D_step : forall a p, nth_error pcs (List.length a) = Some p ->
  D a = (ls <- next_labels m0 p (List.length a =? List.length pcs - 1) n (rsum a) ;; rflat D (map (fun l => l :: a) ls)).
Proof.
  intros a p E. unfold D at 1. rewrite (skipn_nth _ _ _ _ E). cbn [dfs].
  rewrite isnil_last by (apply nth_error_Some; congruence).
  destruct (next_labels m0 p _ n (rsum a)); cbn [rbind]; auto. rewrite rflat_map. apply rflat_ext. intros l _. reflexivity.
Qed.
Lemma T_step : forall a p ls, nth_error pcs (List.length a) = Some p ->
  next_labels m0 p (List.length a =? List.length pcs - 1) n (rsum a) = Ok ls ->
  T a = S (list_sum (map T (map (fun l => l :: a) ls))).
Proof.
  intros a p ls E N. unfold T at 1. rewrite (skipn_nth _ _ _ _ E). cbn [suffix_count].
  rewrite <- isnil_last in N by (apply nth_error_Some; congruence). unfold isnil in N. rewrite N.
  rewrite map_map. reflexivity.
Qed.
Lemma nth_skipn : forall A (l : list A) i j, nth_error (skipn i l) j = nth_error l (i + j).
Proof. induction l as [|x l IH]; intros [|i] j; simpl; auto. destruct j; auto. Qed.
Lemma inv_snoc : forall sfx G loc i a ls, inv sfx G loc -> nth_error G i = Some a ->
  inv (sfx ++ map (fun l => mkSN None 0 l (rsum a) (S (List.length a)) i) ls) (G ++ map (fun l => l :: a) ls) loc.
Proof.
  intros sfx G loc i a ls I Ea. pose proof (iv_len _ _ _ I) as L.
  assert (Li : i < List.length G) by (apply nth_error_Some; congruence).
  constructor. { rewrite !app_length, !map_length. lia. }
  intros j s g Es Eg. destruct (Nat.lt_ge_cases j (List.length G)) as [H|H].
  - rewrite nth_error_app1 in Eg by lia. rewrite nth_error_app1 in Es by lia.
    destruct (iv_pos _ _ _ I j s g Es Eg) as (Q1 & Q2 & Q3 & Q4 & Q5). split; [exact Q1|]. split; [exact Q2|]. split; [exact Q3|].
    split; [|exact Q5]. intros J. destruct (Q4 J) as [W [gp [A [B C]]]]. split; auto. exists gp. rewrite nth_error_app1; auto. lia.
  - rewrite nth_error_app2 in Eg by lia. rewrite nth_error_app2 in Es by lia. rewrite <- L in Es.
    rewrite nth_error_map in Eg, Es. destruct (nth_error ls (j - List.length G)) as [l|]; simpl in *; try discriminate Eg.
    injection Eg as <-. injection Es as <-. cbn [sn_dist sn_sum sn_label sn_first sn_num sn_parent].
    split; auto. split; auto. split; [intros; lia|]. split. 2:{ intros a' E. discriminate E. }
    intros _. split; [lia|]. exists a. rewrite nth_error_app1 by lia. auto.
Qed.

Definition outcome (out : list matching) (Q : list (list N)) : res (list matching) :=
  pl <- rflat D Q ;; o <- rflat evr (filter final pl) ;; Ok (out ++ o).
Definition pending (sfx : list snode) (G : list (list N)) (i : nat) : Prop :=
  forall j s g, i <= j -> 0 < j -> nth_error sfx j = Some s -> nth_error G j = Some g -> sn_first s = None \/ List.length g < List.length pcs.

Lemma mpl_spec_gen : forall fuel A B d i sfx G loc out,
  inv sfx G loc -> pending sfx G i -> skipn i G = A ++ B ->
  (forall g, In g A -> List.length g = d) -> (forall g, In g B -> List.length g = S d) ->
  d <= List.length pcs -> (d = List.length pcs -> B = []) -> (A = [] -> B = []) ->
  list_sum (map T (A ++ B)) <= fuel ->
  (i = 0 -> loc = [m0]) ->
  mpl_loop exts pcs tcs fuel m0 i sfx loc out = outcome out (B ++ A).
Proof.
  induction fuel as [|f IH]; intros A B d i sfx G loc out I Pe Q HA HB Hd HdB HAB Hf H0.
  - assert (A = []) as ->. { destruct A as [|a A]; auto. simpl in Hf. unfold T in Hf. destruct (skipn (List.length a) pcs); simpl in Hf; lia. }
    rewrite (HAB eq_refl) in *. simpl in Q.
    assert (nth_error sfx i = None) as E. { apply nth_error_None. rewrite <- (iv_len _ _ _ I). pose proof (skipn_length i G). rewrite Q in H. simpl in H. lia. }
    simpl. rewrite E. unfold outcome. simpl. rewrite app_nil_r. reflexivity.
  - destruct A as [|a A].
    { rewrite (HAB eq_refl) in *. simpl in Q.
      assert (nth_error sfx i = None) as E. { apply nth_error_None. rewrite <- (iv_len _ _ _ I). pose proof (skipn_length i G). rewrite Q in H. simpl in H. lia. }
      simpl. rewrite E. unfold outcome. simpl. rewrite app_nil_r. reflexivity. }
    assert (Ea : nth_error G i = Some a). { replace i with (i + 0) by lia. rewrite <- nth_skipn, Q. reflexivity. }
    assert (Q' : skipn (S i) G = A ++ B). { pose proof (skipn_nth _ _ _ _ Ea) as W. rewrite Q in W. simpl in W. injection W as W. auto. }
    assert (Li : i < List.length G) by (apply nth_error_Some; congruence).
    destruct (nth_error sfx i) as [c|] eqn:Ec. 2:{ apply nth_error_None in Ec. rewrite <- (iv_len _ _ _ I) in Ec. lia. }
    destruct (iv_pos _ _ _ I i c a Ec Ea) as (Pd & Ps & P0 & Pp & Pf).
    assert (La : List.length a = d) by (apply HA; left; auto).
    cbn [mpl_loop]. rewrite Ec. rewrite Ps, Pd.
    assert (UT : list_sum (map T (A ++ B)) + T a <= S f). { simpl in Hf. lia. }
    destruct (Nat.eq_dec d (List.length pcs)) as [Dl|Dl].
    + (* a leaf *)
      assert (B = []) as -> by auto. rewrite app_nil_r in *.
      assert (nth_error pcs (List.length a) = None) as EN. { apply nth_error_None. lia. } rewrite EN.
      assert (Da : forall g, In g (a :: A) -> D g = Ok [g]).
      { intros g Ig. unfold D. rewrite skipn_all2; [reflexivity|]. rewrite (HA g Ig). lia. }
      assert (DA : forall l, (forall g, In g l -> D g = Ok [g]) -> rflat D l = Ok l).
      { induction l as [|g l IHl]; simpl; intros W; auto. rewrite W by auto. simpl. rewrite IHl by auto. reflexivity. }
      assert (UT2 : list_sum (map T A) <= f). { assert (1 <= T a) by (unfold T; destruct (skipn (List.length a) pcs); simpl; lia). lia. }
      unfold outcome. simpl app. rewrite (DA (a :: A)) by auto. cbn [rbind filter].
      replace (List.length a =? List.length pcs) with true by (symmetry; apply Nat.eqb_eq; lia). rewrite andb_true_r.
      change (rsum a =? n)%N with (final a). destruct (final a) eqn:Fa.
      * cbn [rflat]. pose proof (fill_spec (S i) i sfx G loc a I Ea (Nat.lt_succ_diag_r i)) as F.
        destruct (evr a) as [ms| |] eqn:Eva; [|rewrite F; reflexivity|rewrite F; reflexivity].
        destruct F as (sfx' & loc' & s' & E1 & I' & [GL Gr] & Es' & k & Ek & Sl & Full). rewrite E1. cbn [rbind].
        unfold vget at 1. rewrite Es'. cbn [rbind]. rewrite Ek. cbn [rbind].
        assert (Sk : skipn k loc' = ms).
        { destruct (Nat.eq_dec i 0) as [->|Ni].
          - destruct (P0 eq_refl) as [Ga [fa Efa]]. destruct (Gr 0 c Ec) as (c' & Ec' & _ & _ & _ & _ & _ & Keep).
            rewrite Es' in Ec'. injection Ec' as <-. assert (s' = c) by (apply Keep; congruence). subst s'.
            (* the root is filled from the start *)
            cbn [fill_suffix] in E1. unfold vget in E1. rewrite Ec in E1. cbn [rbind] in E1. rewrite Efa in E1. injection E1 as <- <-.
            rewrite (H0 eq_refl) in *. rewrite Efa in Ek. injection Ek as ->.
            subst a. simpl in Eva. injection Eva as <-.
            destruct k as [|k]; [reflexivity|]. unfold slice in Sl. simpl in Sl. rewrite skipn_nil, firstn_nil in Sl. discriminate Sl.
          - assert (sn_first c = None) as Nc.
            { destruct (Pe i c a (Nat.le_refl i)) as [W|W]; auto; lia. }
            specialize (Full c Ec Nc). rewrite <- Sl. unfold slice. rewrite firstn_all2; auto. rewrite skipn_length. lia. }
        rewrite Sk. rewrite (IH A [] d (S i) sfx' G loc' (out ++ ms)); auto.
        -- unfold outcome. simpl app. rewrite (DA A) by (intros; apply Da; right; auto). cbn [rbind].
           destruct (rflat evr (filter final A)); simpl; auto. rewrite app_assoc. reflexivity.
        -- intros j s g Hj Hj0 Ej Egj. destruct (nth_error sfx j) as [sj|] eqn:Esj.
           2:{ apply nth_error_None in Esj. assert (nth_error sfx' j = None) by (apply nth_error_None; lia). congruence. }
           destruct (Gr j sj Esj) as (sj' & Ej' & _ & _ & _ & _ & Keep & _). rewrite Ej in Ej'. injection Ej' as <-.
           rewrite Keep by lia. apply (Pe j sj g); auto. lia.
        -- rewrite app_nil_r. auto.
        -- intros g Ig. apply HA. right. auto.
        -- rewrite app_nil_r. auto.
        -- lia.
      * cbn [rbind]. rewrite (IH A [] d (S i) sfx G loc out); auto.
        -- unfold outcome. simpl app. rewrite (DA A) by (intros; apply Da; right; auto). reflexivity.
        -- intros j s g Hj. apply Pe. lia.
        -- rewrite app_nil_r. auto.
        -- intros g Ig. apply HA. right. auto.
        -- rewrite app_nil_r. auto.
        -- lia.
    + (* an inner node *)
      assert (List.length a =? List.length pcs = false) as -> by (apply Nat.eqb_neq; lia). rewrite andb_false_r. cbn [rbind].
      destruct (nth_error pcs (List.length a)) as [p|] eqn:Ep. 2:{ apply nth_error_None in Ep. lia. }
      pose proof (D_step a p Ep) as Da.
      pose proof (next_no_ub p (List.length a =? List.length pcs - 1) (rsum a) (nth_error_In _ _ Ep)) as NU.
      destruct (next_labels m0 p (List.length a =? List.length pcs - 1) n (rsum a)) as [ls| |] eqn:En; cbn [rbind] in *.
      2: congruence.
      * pose proof (T_step a p ls Ep En) as Ta. set (ch := map (fun l => l :: a) ls) in *.
        assert (EO : outcome out (B ++ a :: A) = outcome out ((B ++ ch) ++ A)).
        { unfold outcome. rewrite <- app_assoc, !rflat_app. cbn [rflat]. rewrite Da. rewrite <- ?app_assoc.
          destruct (rflat D B) as [b| |]; cbn [rbind]; auto. }
        rewrite EO.
        assert (Lch : forall g, In g ch -> List.length g = S d). { intros g Ig. unfold ch in Ig. apply in_map_iff in Ig. destruct Ig as [l [<- _]]. simpl. lia. }
        assert (I2 : inv (sfx ++ map (fun l => mkSN None 0 l (rsum a) (S (List.length a)) i) ls) (G ++ ch) loc) by (apply inv_snoc; auto).
        assert (Q2 : skipn (S i) (G ++ ch) = A ++ B ++ ch).
        { rewrite skipn_app, Q'. replace (S i - List.length G) with 0 by lia. simpl. rewrite app_assoc. reflexivity. }
        assert (Pe2 : pending (sfx ++ map (fun l => mkSN None 0 l (rsum a) (S (List.length a)) i) ls) (G ++ ch) (S i)).
        { intros j s g Hj Hj0 Es Eg. destruct (Nat.lt_ge_cases j (List.length sfx)) as [W|W].
          - rewrite nth_error_app1 in Es by auto. rewrite nth_error_app1 in Eg by (rewrite (iv_len _ _ _ I); auto). apply (Pe j s g); auto. lia.
          - rewrite nth_error_app2 in Es by auto. rewrite nth_error_map in Es. destruct (nth_error ls (j - List.length sfx)); simpl in Es; try discriminate Es.
            injection Es as <-. left. reflexivity. }
        assert (Hsum : list_sum (map T (A ++ B ++ ch)) <= f).
        { rewrite app_assoc, map_app, list_sum_app. lia. }
        destruct A as [|a2 A2].
        -- rewrite app_nil_r. simpl app in Q2. simpl app in Hsum.
           assert (HB2 : forall g, In g (B ++ ch) -> List.length g = S d). { intros g Ig. apply in_app_or in Ig. destruct Ig; auto. }
           rewrite (IH (B ++ ch) [] (S d) (S i) _ (G ++ ch) loc out); auto.
           ++ rewrite app_nil_r. auto.
           ++ intros g [].
           ++ lia.
           ++ rewrite app_nil_r. auto.
           ++ lia.
        -- apply (IH (a2 :: A2) (B ++ ch) d (S i) _ (G ++ ch) loc out); auto.
           ++ intros g Ig. apply HA. right. auto.
           ++ intros g Ig. apply in_app_or in Ig. destruct Ig; auto.
           ++ intros; lia.
           ++ discriminate.
           ++ lia.
      * unfold outcome. rewrite rflat_app. cbn [rflat]. rewrite Da.
        pose proof (rflat_no_ub _ _ D B (fun g _ => D_no_ub g)) as NB.
        destruct (rflat D B); cbn [rbind]; auto. congruence.
Qed.

Theorem mpl_spec : match_parameter_lists exts pcs tcs m0 =
  (pl <- dfs pcs [] ;; rflat evr (filter final pl)).
Proof.
  unfold match_parameter_lists.
  rewrite (mpl_spec_gen _ [[]] [] 0 0 _ [[]] [m0] []).
  - unfold outcome. simpl app. cbn [rflat]. unfold D. simpl skipn. destruct (dfs pcs []); cbn [rbind]; auto.
    rewrite app_nil_r. destruct (rflat evr (filter final a)); reflexivity.
  - constructor; auto. intros [|i] s g Es Eg; simpl in *.
    2:{ destruct i; discriminate Es. }
    injection Es as <-. injection Eg as <-. simpl. repeat split; auto; try lia. { exists 0. auto. }
    injection H as <-. auto. injection H as <-. reflexivity.
  - intros j s g Hj Hj0 Es. destruct j as [|j]; [lia|]. destruct j; discriminate Es.
  - reflexivity.
  - intros g [<-|[]]. reflexivity.
  - intros g [].
  - lia.
  - auto.
  - auto.
  - simpl. rewrite Nat.add_0_r. apply Nat.le_refl.
  - auto.
Qed.
End MPLproof.
