(** The rules about derivatives *)
From Coq Require Import Reals Lra.
From Coquelicot Require Import Coquelicot.
From Flocq Require Import Core.
From Coq Require Import List Ascii String NArith ZArith Bool Lia Arith.
From Coq.Floats Require Import SpecFloat.
From Verif Require Import M_Base M_Tree M_Context M_Parser M_StringUtil M_TreeUtil M_Match M_RuleParsing M_Strtod M_Simplify S_Tree S_Match L_Match L_MatchRule P_Match S_Eval S_Simplify L_Simplify L_SimpPattern L_SimpRules.
Import ListNotations.
Open Scope list_scope.
Open Scope R_scope.

(** ** Instances of stripped patterns *)
Definition op_of (id : nat) : operator := mkOp [] id None 0 ALeft PFunction 0.
Fixpoint build (s : assignment) (p : apat) : list node :=
  match p with
  | AConst v => [NConst v 0]
  | AVar x => s x
  | AOp id cs => [NOp (op_of id) (flat_map (build s) cs) 0]
  end.
Lemma alike_refl : forall n, alike n n.
Proof.
  induction n as [v t|x i t|op cs t IH] using node_ind'; constructor; auto.
  induction IH; constructor; auto.
Qed.
Lemma alikes_refl : forall l, Forall2 alike l l.
Proof. induction l; constructor; auto using alike_refl. Qed.
Lemma build_inst : forall s p, Forall2 alike (inst s p) (build s (strip p)).
Proof.
  intros s. induction p as [v t|x i t|op cs t IH] using node_ind'; cbn [inst strip build].
  - constructor; auto. constructor; auto.
  - apply alikes_refl.
  - constructor; auto. constructor; [reflexivity|]. induction IH as [|c cs Hc _ IHc]; cbn [map flat_map]; auto. apply Forall2_app; auto.
Qed.

Lemma pow_derive : forall (f g : R -> R) x dx dy, is_derive f x dx -> is_derive g x dy -> 0 < f x ->
  is_derive (fun u => exp (g u * ln (f u))) x ((g x * dx / f x + dy * ln (f x)) * exp (g x * ln (f x))).
Proof.
  intros f g x dx dy E1 E2 P.
  assert (X1 : ex_derive f x) by (eexists; exact E1). assert (X2 : ex_derive g x) by (eexists; exact E2).
  pose proof (is_derive_unique _ _ _ E1) as U1. pose proof (is_derive_unique _ _ _ E2) as U2.
  auto_derive; [auto|]. change (fun x : R => f x) with f. change (fun x : R => g x) with g. rewrite U1, U2. field. lra.
Qed.

Lemma ok_m2 : forall x, power_ok x (- (2)) -> x <> 0.
Proof. intros x [H|[[H K]|[H K]]]; lra. Qed.
Lemma power_m2 : forall x, x <> 0 -> power x (- (2)) = / (x * x).
Proof. intros x H. replace (- (2)) with (IZR (-2)) by (simpl; lra). rewrite power_Z by auto. simpl. rewrite Rmult_1_r. reflexivity. Qed.
Lemma below_one : forall x, 0 <= 1 - x * x -> sqrt (1 - x * x) <> 0 -> -1 < x < 1.
Proof.
  intros x A B. assert (1 - x * x <> 0) by (intros E; rewrite E, sqrt_0 in B; auto). assert (x * x < 1) by lra. split; nra.
Qed.

Section D.
Variable F : others.
Notation value := (value F).
Notation defined := (defined F).
Lemma alike_same : forall a b env, alike a b -> value a env = value b env /\ (defined a env <-> defined b env).
Proof. intros a b env A. exact (alike_sem F a b A env). Qed.

(** What a rule about derivatives claims of its instances *)
Definition claims (R : node -> node -> Prop) (p a : apat) : Prop :=
  forall s, (forall x, In x (avars p) -> is_list x = false -> exists t, s x = [t]) ->
  forall sub new, build s p = [sub] -> build s a = [new] -> R sub new.

Section Rule.
Variables (ck : node -> res bool) (p : node) (cs : list node) (pat : pattern) (after : node) (r : rule).
Hypothesis (HP : get_pattern p cs = PatOk pat) (HR : get_rule pat after = Some r) (Cov : covered p cs).
Hypothesis Nv : is_var p = false.

Lemma build_two : forall s sub new k, Forall2 alike (inst s p) [sub] -> inst s (located k after) = [new] ->
  exists sub' new', build s (strip p) = [sub'] /\ build s (strip after) = [new'] /\
    (forall env, value sub env = value sub' env /\ (defined sub env <-> defined sub' env)) /\
    (forall env, value new env = value new' env /\ (defined new env <-> defined new' env)).
Proof.
  clear. intros s sub new k A I. pose proof (build_inst s p) as B. pose proof (build_inst s (located k after)) as C. rewrite strip_located, I in C.
  inversion A as [|n1 ? ? ? A1 A2 E1]; subst. inversion A2; subst. rewrite <- E1 in B. inversion B as [|? n2 ? ? B1 B2 E2]; subst. inversion B2; subst.
  inversion C as [|? n3 ? ? C1 C2 E3]; subst. inversion C2; subst. exists n2, n3. split; auto. split; auto. split; intros env.
  - destruct (alike_same _ _ env A1) as [V1 D1]. destruct (alike_same _ _ env B1) as [V2 D2]. split; [congruence|tauto].
  - destruct (alike_same _ _ env C1) as [V1 D1]. split; [congruence|tauto].
Qed.
Lemma fits_one : forall s, fits s p -> forall x, In x (avars (strip p)) -> is_list x = false -> exists t, s x = [t].
Proof.
  clear. intros s Fi x Ix Nl. rewrite avars_strip in Ix. assert (L : List.length (s x) = 1%nat). { apply Fi; auto. intros [y ->]. discriminate Nl. }
  destruct (s x) as [|t [|]]; try discriminate L. eauto.
Qed.
(** Where both sides have a value *)
Lemma agree_step : claims (agre F) (strip p) (strip after) -> forall t t', machine_sized t -> apply_rule ck t r = Ok (Some t') -> agre F t t'.
Proof.
  intros H t t' MS A. revert MS A. apply (rule_rel F ck p cs pat after r HP HR Cov Nv false).
  intros s sub new Fi _ Al [k Hin]. destruct (build_two s sub new k Al Hin) as (sub' & new' & B1 & B2 & S1 & S2).
  pose proof (H s (fits_one s Fi) sub' new' B1 B2) as G. intros env D D'.
  destruct (S1 env) as [V1 D1]. destruct (S2 env) as [V2 D2]. rewrite V1, V2. apply G; tauto.
Qed.
(** If the result has a value, so had what it replaces, and the same. *)
Definition back (a b : node) : Prop := keep F b a.
Lemma replaced_back : forall q a b t u, replaced q a b t u -> replaced q b a u t.
Proof. clear. intros q a b t u R. induction R; constructor; auto. Qed.
Lemma back_step : claims back (strip p) (strip after) -> is_var after = false -> incl (var_names p) (var_names after) ->
  forall t t', machine_sized t -> apply_rule ck t r = Ok (Some t') -> keep F t' t.
Proof.
  intros H Na I t t' MS A.
  pose proof (C34_apply_rule ck p cs pat after r t (Some t') HP HR MS Cov A) as X. cbv beta iota in X.
  destruct X as (l1 & q & l2 & sub & s & new & _ & Fi & Al & Cs & Hin & Re & _).
  destruct (build_two s sub new _ Al Hin) as (sub' & new' & B1 & B2 & S1 & S2).
  pose proof (H s (fits_one s Fi) sub' new' B1 B2) as G. apply replaced_back in Re.
  eapply (keep_cong F); [|..|exact Re|].
  - intros env D. destruct (S1 env) as [V1 D1]. destruct (S2 env) as [V2 D2]. rewrite V1, V2. destruct (G env) as [X Y]; tauto.
  - destruct after as [v t0|x i t0|op ps t0]; try discriminate Na; cbn [located inst] in Hin; injection Hin as <-; reflexivity.
  - left. intros y Iy. assert (Z : In y (flat_map var_names (inst s p))).
    { rewrite (alikes_names _ _ Al). simpl. rewrite app_nil_r. exact Iy. }
    apply inst_names in Z. destruct Z as (x & Ix & Z). apply I in Ix.
    assert (W : In y (flat_map var_names (inst s (located (location sub) after)))) by (apply inst_names; exists x; rewrite located_names; auto).
    rewrite Hin in W. simpl in W. rewrite app_nil_r in W. exact W.
Qed.
End Rule.

(** ** Derivatives of functions of one variable *)
(** Wherever deriv(X, Z) has a value *)
Lemma dv_cases : forall X Z env, defined (NOp (op_of 3) [X; Z] 0) env -> exists z i t, Z = NVar z i t /\
  locally (env z) (fun u => defined X (upd env z u)) /\ ex_derive (fun u => value X (upd env z u)) (env z).
Proof.
  intros X Z env D. destruct (defined_3 F (op_of 3) [X; Z] 0 env eq_refl D) as (e & z & i & t & E). injection E as -> ->.
  rewrite (defined_3' F (op_of 3) e z i t 0 env eq_refl) in D. exists z, i, t. auto.
Qed.
Definition D (X : node) (z : cstr) (env : cstr -> R) : Prop :=
  locally (env z) (fun u => defined X (upd env z u)) /\ ex_derive (fun u => value X (upd env z u)) (env z).
Definition d (X : node) (z : cstr) (env : cstr -> R) : R := Derive (fun u => value X (upd env z u)) (env z).
Lemma dv_def : forall X z i t env, defined (NOp (op_of 3) [X; NVar z i t] 0) env = D X z env.
Proof. intros. exact (defined_3' F (op_of 3) X z i t 0 env eq_refl). Qed.
Lemma dv_val : forall X z i t env, value (NOp (op_of 3) [X; NVar z i t] 0) env = d X z env.
Proof. intros. exact (value_3 F (op_of 3) X z i t 0 env eq_refl). Qed.
Lemma D_here : forall X z env, D X z env -> defined X env.
Proof. intros X z env [L _]. apply locally_singleton in L. exact (proj1 (proj2 (at_same F X env z)) L). Qed.

(** An operator of one operand *)
Lemma chain1 : forall id f f' X z env, id <> 2%nat -> id <> 3%nat ->
  (forall x, opval F id [x] = f x) -> D X z env -> 
  locally (value X env) (fun x => opdom F id [x]) -> is_derive f (value X env) f' ->
  D (NOp (op_of id) [X] 0) z env /\ d (NOp (op_of id) [X] 0) z env = d X z env * f'.
Proof.
  intros id f f' X z env N2 N3 Hf HD HL Hd. destruct HD as [L E].
  assert (V : forall u, value (NOp (op_of id) [X] 0) (upd env z u) = f (value X (upd env z u))).
  { intros u. rewrite (value_other F) by auto. simpl. apply Hf. }
  assert (V0 : value X (upd env z (env z)) = value X env) by exact (proj1 (at_same F X env z)).
  assert (Dd : is_derive (fun u => f (value X (upd env z u))) (env z) (scal (d X z env) f')).
  { apply (is_derive_comp f (fun u => value X (upd env z u))).
    - rewrite V0. exact Hd.
    - apply Derive_correct. exact E. }
  assert (Dd' : is_derive (fun u => value (NOp (op_of id) [X] 0) (upd env z u)) (env z) (d X z env * f')).
  { eapply is_derive_ext; [|exact Dd]. intros u. symmetry. apply V. }
  split; [split|].
  - assert (C : locally (env z) (fun u => opdom F id [value X (upd env z u)])).
    { assert (Cc : continuous (fun u => value X (upd env z u)) (env z)) by exact (ex_derive_continuous (V:=R_NormedModule) _ _ E).
      apply (Cc (fun x => opdom F id [x])). rewrite V0. exact HL. }
    eapply filter_imp; [|exact (filter_and _ _ L C)]. intros u [A B]. rewrite (defined_other F) by auto. split; [constructor; auto|]. exact B.
  - eexists. exact Dd'.
  - apply is_derive_unique. exact Dd'.
Qed.
Lemma chain2 : forall id f X Y z env l, id <> 2%nat -> id <> 3%nat ->
  (forall x y, opval F id [x; y] = f x y) -> D X z env -> D Y z env ->
  locally (env z) (fun u => opdom F id [value X (upd env z u); value Y (upd env z u)]) ->
  is_derive (fun u => f (value X (upd env z u)) (value Y (upd env z u))) (env z) l ->
  D (NOp (op_of id) [X; Y] 0) z env /\ d (NOp (op_of id) [X; Y] 0) z env = l.
Proof.
  intros id f X Y z env l N2 N3 Hf [L1 E1] [L2 E2] HL Hd.
  assert (Dd' : is_derive (fun u => value (NOp (op_of id) [X; Y] 0) (upd env z u)) (env z) l).
  { eapply is_derive_ext; [|exact Hd]. intros u. rewrite (value_other F) by auto. simpl. symmetry. apply Hf. }
  split; [split|].
  - eapply filter_imp; [|exact (filter_and _ _ (filter_and _ _ L1 L2) HL)]. intros u [[A B] C]. rewrite (defined_other F) by auto. split; [repeat constructor; auto|]. exact C.
  - eexists. exact Dd'.
  - apply is_derive_unique. exact Dd'.
Qed.

(** Continuity near a point *)
Lemma near : forall X z env (P : R -> Prop), D X z env -> locally (value X env) P -> locally (env z) (fun u => P (value X (upd env z u))).
Proof.
  intros X z env P [_ E] L.
  assert (Cc : continuous (fun u => value X (upd env z u)) (env z)) by exact (ex_derive_continuous (V:=R_NormedModule) _ _ E).
  apply (Cc P). rewrite (proj1 (at_same F X env z)). exact L.
Qed.
Lemma D_derive : forall X z env, D X z env -> is_derive (fun u => value X (upd env z u)) (env z) (d X z env).
Proof. intros X z env [_ E]. apply Derive_correct. exact E. Qed.
Lemma everywhere : forall (x : R) (P : R -> Prop), (forall u, P u) -> locally x P.
Proof. intros x P H. apply filter_forall. exact H. Qed.
Lemma lt_near : forall a b : R, a < b -> locally b (fun x => a < x).
Proof. intros a b H. apply (open_gt a b H). Qed.
Lemma gt_near : forall a b : R, b < a -> locally b (fun x => x < a).
Proof. intros a b H. apply (open_lt a b H). Qed.
Lemma neq_near : forall a b : R, b <> a -> locally b (fun x => x <> a).
Proof. intros a b H. apply (open_neq a b H). Qed.

(** ** The rules of one operand *)
Lemma d_sin : forall X z env, D X z env -> D (NOp (op_of 22) [X] 0) z env /\ d (NOp (op_of 22) [X] 0) z env = d X z env * cos (value X env).
Proof. intros X z env H. apply (chain1 22 sin); auto; try discriminate. apply everywhere. intros u. exact I. apply is_derive_sin. Qed.
Lemma d_cos : forall X z env, D X z env -> D (NOp (op_of 23) [X] 0) z env /\ d (NOp (op_of 23) [X] 0) z env = d X z env * - sin (value X env).
Proof. intros X z env H. apply (chain1 23 cos); auto; try discriminate. apply everywhere. intros u. exact I. apply is_derive_cos. Qed.
Lemma d_tan : forall X z env, D X z env -> cos (value X env) <> 0 ->
  D (NOp (op_of 24) [X] 0) z env /\ d (NOp (op_of 24) [X] 0) z env = d X z env * (/ (cos (value X env) * cos (value X env))).
Proof.
  intros X z env H N. apply (chain1 24 tan); auto; try discriminate.
  - assert (Cc : continuous cos (value X env)) by (apply (ex_derive_continuous (V:=R_NormedModule)); eexists; apply is_derive_cos).
    apply (Cc (fun x => x <> 0)). apply neq_near. auto.
  - unfold tan. auto_derive; auto. field_simplify; auto. f_equal. 
    pose proof (sin2_cos2 (value X env)) as Q. unfold Rsqr in Q. lra. 
Qed.
Lemma d_asin : forall X z env, D X z env -> -1 < value X env < 1 ->
  D (NOp (op_of 25) [X] 0) z env /\ d (NOp (op_of 25) [X] 0) z env = d X z env * (1 / sqrt (1 - value X env * value X env)).
Proof.
  intros X z env H N. apply (chain1 25 asin); auto; try discriminate.
  - eapply filter_imp; [|exact (filter_and _ _ (lt_near (-1) _ (proj1 N)) (gt_near 1 _ (proj2 N)))]. intros u [A B]. simpl. lra.
  - pose proof (derive_pt_asin _ N) as Q. apply is_derive_Reals. unfold Rsqr in Q. apply derive_pt_eq_1 in Q. exact Q.
Qed.
Lemma d_acos : forall X z env, D X z env -> -1 < value X env < 1 ->
  D (NOp (op_of 26) [X] 0) z env /\ d (NOp (op_of 26) [X] 0) z env = d X z env * (-1 / sqrt (1 - value X env * value X env)).
Proof.
  intros X z env H N. apply (chain1 26 acos); auto; try discriminate.
  - eapply filter_imp; [|exact (filter_and _ _ (lt_near (-1) _ (proj1 N)) (gt_near 1 _ (proj2 N)))]. intros u [A B]. simpl. lra.
  - pose proof (derive_pt_acos _ N) as Q. apply is_derive_Reals. unfold Rsqr in Q. apply derive_pt_eq_1 in Q. exact Q.
Qed.
Lemma d_atan : forall X z env, D X z env ->
  D (NOp (op_of 27) [X] 0) z env /\ d (NOp (op_of 27) [X] 0) z env = d X z env * (/ (1 + value X env * value X env)).
Proof.
  intros X z env H. apply (chain1 27 atan); auto; try discriminate. apply everywhere. intros u. exact I.
  apply is_derive_Reals. replace (value X env * value X env) with (value X env ^ 2) by ring. apply derivable_pt_lim_atan.
Qed.
Lemma d_ln : forall X z env, D X z env -> 0 < value X env ->
  D (NOp (op_of 19) [X] 0) z env /\ d (NOp (op_of 19) [X] 0) z env = d X z env * / value X env.
Proof.
  intros X z env H N. apply (chain1 19 ln); auto; try discriminate.
  - apply lt_near. auto.
  - apply is_derive_Reals. apply derivable_pt_lim_ln. auto.
Qed.
Lemma d_neg : forall X z env, D X z env -> D (NOp (op_of 12) [X] 0) z env /\ d (NOp (op_of 12) [X] 0) z env = - d X z env.
Proof.
  intros X z env H. replace (- d X z env) with (d X z env * -1) by ring. apply (chain1 12 Ropp); auto; try discriminate. apply everywhere. intros u. exact I.
  auto_derive; auto.
Qed.
Lemma d_add : forall X Y z env, D X z env -> D Y z env -> D (NOp (op_of 4) [X; Y] 0) z env /\ d (NOp (op_of 4) [X; Y] 0) z env = d X z env + d Y z env.
Proof.
  intros X Y z env H K. apply (chain2 4 Rplus); auto; try discriminate. apply everywhere. intros u. exact I.
  apply (is_derive_plus (V:=R_NormedModule)); apply D_derive; auto.
Qed.
Lemma d_sub : forall X Y z env, D X z env -> D Y z env -> D (NOp (op_of 5) [X; Y] 0) z env /\ d (NOp (op_of 5) [X; Y] 0) z env = d X z env - d Y z env.
Proof.
  intros X Y z env H K. apply (chain2 5 Rminus); auto; try discriminate. apply everywhere. intros u. exact I.
  apply (is_derive_minus (V:=R_NormedModule)); apply D_derive; auto.
Qed.
Lemma d_mul : forall X Y z env, D X z env -> D Y z env -> D (NOp (op_of 6) [X; Y] 0) z env /\
  d (NOp (op_of 6) [X; Y] 0) z env = d X z env * value Y env + value X env * d Y z env.
Proof.
  intros X Y z env H K. apply (chain2 6 Rmult); auto; try discriminate. apply everywhere. intros u. exact I.
  rewrite <- (proj1 (at_same F X env z)), <- (proj1 (at_same F Y env z)).
  apply (is_derive_mult (fun u => value X (upd env z u)) (fun u => value Y (upd env z u))); try (apply D_derive; auto). intros; apply Rmult_comm.
Qed.
Lemma d_pow : forall X Y z env, D X z env -> D Y z env -> 0 < value X env -> D (NOp (op_of 8) [X; Y] 0) z env /\
  d (NOp (op_of 8) [X; Y] 0) z env = (value Y env * d X z env / value X env + d Y z env * ln (value X env)) * power (value X env) (value Y env).
Proof.
  intros X Y z env H K P. apply (chain2 8 power); auto; try discriminate.
  - eapply filter_imp; [|exact (near X z env (fun x => 0 < x) H (lt_near 0 _ P))]. intros u A. left. exact A.
  - assert (Ev : locally (env z) (fun u => exp (value Y (upd env z u) * ln (value X (upd env z u))) = power (value X (upd env z u)) (value Y (upd env z u)))).
    { eapply filter_imp; [|exact (near X z env (fun x => 0 < x) H (lt_near 0 _ P))]. intros u A. rewrite power_pos; auto. }
    eapply is_derive_ext_loc; [exact Ev|].
    rewrite power_pos by auto. unfold Rpower. rewrite <- (proj1 (at_same F X env z)), <- (proj1 (at_same F Y env z)) in *.
    apply (pow_derive (fun u => value X (upd env z u)) (fun u => value Y (upd env z u)) (env z)); auto; apply D_derive; auto.
Qed.
End D.

Definition ainclb (l m : list cstr) : bool := forallb (fun x => existsb (fun y => if name_dec x y then true else false) m) l.
Definition back_rule (F : others) (s : cstr) : Prop :=
  match rule_sem s with
  | Some (p, cs, a) => is_avar p = false /\ acovered p cs = true /\ is_avar a = false /\ ainclb (avars p) (avars a) = true /\ claims (back F) p a
  | None => False
  end.
Definition agree_rule (F : others) (s : cstr) : Prop :=
  match rule_sem s with
  | Some (p, cs, a) => is_avar p = false /\ acovered p cs = true /\ claims (agre F) p a
  | None => False
  end.
Lemma ainclb_spec : forall l m, ainclb l m = true -> incl l m.
Proof.
  intros l m H x Ix. unfold ainclb in H. rewrite forallb_forall in H. specialize (H x Ix). rewrite existsb_exists in H.
  destruct H as (y & Iy & E). destruct (name_dec x y); [|discriminate E]. subst. exact Iy.
Qed.
Lemma back_rule_keep : forall F ck s r t t', back_rule F s -> parse_rule strtod the_prop_ctx s = Ok (Some r) ->
  machine_sized t -> apply_rule ck t r = Ok (Some t') -> keep F t' t.
Proof.
  intros F ck s r t t' So Pa MS A. destruct (rule_parts_spec _ _ _ _ Pa) as (p & cs & a & pat & E & HP & HR).
  unfold back_rule, rule_sem in So. rewrite E in So. destruct So as (Nv & Cov & Na & Inc & Ps).
  apply acovered_spec in Cov. apply ainclb_spec in Inc. rewrite !avars_strip in Inc. eapply (back_step F ck p cs pat a r HP HR Cov); eauto.
  - destruct a; auto; discriminate Na.
Qed.
Lemma agree_rule_agree : forall F ck s r t t', agree_rule F s -> parse_rule strtod the_prop_ctx s = Ok (Some r) ->
  machine_sized t -> apply_rule ck t r = Ok (Some t') -> agre F t t'.
Proof.
  intros F ck s r t t' So Pa MS A. destruct (rule_parts_spec _ _ _ _ Pa) as (p & cs & a & pat & E & HP & HR).
  unfold agree_rule, rule_sem in So. rewrite E in So. destruct So as (Nv & Cov & Ps).
  apply acovered_spec in Cov. eapply (agree_step F ck p cs pat a r HP HR Cov); eauto. destruct p; auto; discriminate Nv.
Qed.

Section T.
Variable F : others.
Notation value := (value F).
Notation defined := (defined F).
Lemma def_op : forall id cs env, id <> 2%nat -> id <> 3%nat -> (defined (NOp (op_of id) cs 0) env <-> Forall (fun c => defined c env) cs /\ opdom F id (map (fun c => value c env) cs)).
Proof. intros. apply (defined_other F (op_of id)); auto. Qed.
Lemma val_op : forall id cs env, id <> 2%nat -> id <> 3%nat -> value (NOp (op_of id) cs 0) env = opval F id (map (fun c => value c env) cs).
Proof. intros. apply (value_other F (op_of id)); auto. Qed.
Ltac tree_single Hs :=
  repeat match goal with
  | E : context [?s (?c :: ?l)] |- _ =>
    match type of Hs with context [s] => idtac end;
    let r := fresh "X" in let Hr := fresh "Hr" in
    destruct (Hs (c :: l) ltac:(simpl; tauto) eq_refl) as [r Hr]; rewrite !Hr in *; clear Hr
  end.
Ltac dstep H := 
  first [ rewrite def_op in H by discriminate; destruct H as [? ?]
        | match type of H with Forall _ (_ :: _) => apply Forall_cons_iff in H; destruct H as [? ?] end
        | match type of H with Forall _ [] => clear H end ].
Ltac dopen := repeat match goal with
  | H : S_Simplify.defined F (NOp (op_of ?id) _ 0) _ |- _ => rewrite def_op in H by discriminate; destruct H as [? ?]
  | H : Forall _ (_ :: _) |- _ => apply Forall_cons_iff in H; destruct H as [? ?]
  | H : Forall _ [] |- _ => clear H
  end.
Ltac claim := let s := fresh "s" in let Hs := fresh "Hs" in let E1 := fresh in let E2 := fresh in
  intros s Hs sub new E1 E2; cbn [build flat_map app] in E1, E2; tree_single Hs; cbn [app] in E1, E2; injection E1 as <-; injection E2 as <-; clear Hs.
Lemma val_const : forall v t env, value (NConst v t) env = val v. Proof. reflexivity. Qed.
Lemma val_var : forall x i t env, value (NVar x i t) env = env x. Proof. reflexivity. Qed.
Ltac vals := cbn [map opval opdom on0 on1 on2] in *; repeat match goal with
  | |- context [S_Simplify.value F (NOp (op_of ?id) ?cs 0) ?env] =>
    first [rewrite (val_op id cs env) by discriminate | rewrite dv_val]; cbn [map opval opdom on0 on1 on2]
  | H : context [S_Simplify.value F (NOp (op_of ?id) ?cs 0) ?env] |- _ =>
    first [rewrite (val_op id cs env) in H by discriminate | rewrite dv_val in H]; cbn [map opval opdom on0 on1 on2] in H
  end; cbn [map opval opdom on0 on1 on2] in *; rewrite ?val_const, ?val_var, ?v0, ?v1, ?v2, ?v05 in *.
Ltac by_one L := match goal with |- context [d F (NOp (op_of _) [?X] 0) ?z ?env] => destruct (L F X z env) as [A B]; auto; try rewrite B; try split; auto; try ring end.
Ltac by_two L := match goal with |- context [d F (NOp (op_of _) [?X; ?Y] 0) ?z ?env] => destruct (L F X Y z env) as [A B]; auto; try rewrite B; try split; auto; try ring end.
Ltac dvar := match goal with H : S_Simplify.defined F (NOp (op_of 3) [?X; ?Z] 0) _ |- _ =>
    let z := fresh "z" in let i := fresh "i" in let t := fresh "t" in destruct (dv_cases F X Z _ H) as (z & i & t & -> & _) end;
  rewrite ?dv_def, ?dv_val in *.
Ltac start := sem_open F; side; claim; intros env H; dopen; dvar; rewrite ?dv_def, ?dv_val in *; vals; rewrite ?dv_def, ?dv_val in *.
Lemma b24 : back_rule F (str "deriv(-x, z)        -> -deriv(x, z)").
Proof. start. by_one d_neg. Qed.
Lemma b25 : back_rule F (str "deriv(x + y, z)     -> deriv(x, z) + deriv(y, z)").
Proof. start. by_two d_add. Qed.
Lemma b26 : back_rule F (str "deriv(x - y, z)     -> deriv(x, z) - deriv(y, z)").
Proof. start. by_two d_sub. Qed.
Lemma b27 : back_rule F (str "deriv(x*y, z)       -> deriv(x, z)*y + x*deriv(y, z)").
Proof. start. by_two d_mul. Qed.
Lemma b28 : back_rule F (str "deriv(sin(x), z)    -> cos(x) * deriv(x, z)").
Proof. start. by_one d_sin. Qed.
Lemma b29 : back_rule F (str "deriv(cos(x), z)    -> -sin(x) * deriv(x, z)").
Proof. start. by_one d_cos. Qed.
Lemma b30 : back_rule F (str "deriv(tan(x), z)    -> deriv(x, z) * cos(x)^-2").
Proof. start. assert (cos (value X env) <> 0) by (apply ok_m2; auto). rewrite power_m2 by auto. by_one d_tan. Qed.
Lemma b31 : back_rule F (str "deriv(asin(x), z)   -> deriv(x, z) / sqrt(1 - x^2)").
Proof. start. rewrite power_2 in *. assert (-1 < value X env < 1) by (apply below_one; auto). by_one d_asin. field; auto. Qed.
Lemma b32 : back_rule F (str "deriv(acos(x), z)   -> -deriv(x, z) / sqrt(1 - x^2)").
Proof. start. rewrite power_2 in *. assert (-1 < value X env < 1) by (apply below_one; auto). by_one d_acos. field; auto. Qed.
Lemma b33 : back_rule F (str "deriv(atan(x), z)   -> deriv(x, z) / (x^2 + 1)").
Proof. start. rewrite power_2 in *. by_one d_atan. unfold Rdiv. f_equal. f_equal. ring. Qed.
Lemma b34 : back_rule F (str "deriv(e^y, z)       -> deriv(y, z)*e^y").
Proof.
  start. match goal with |- context [d F (NOp (op_of _) [?E; ?Y] 0) ?z ?env] => assert (DE : D F E z env /\ d F E z env = 0) end.
  { split; [split|].
    - apply everywhere. intros u. rewrite def_op by discriminate. simpl. auto.
    - eapply ex_derive_ext; [|apply (ex_derive_const (exp 1))]. intros u. rewrite val_op by discriminate. reflexivity.
    - unfold d. rewrite (Derive_ext _ (fun _ => exp 1)); [apply Derive_const|]. intros u. rewrite val_op by discriminate. reflexivity. }
  match goal with |- context [d F (NOp (op_of _) [?E; ?Y] 0) ?z ?env] => destruct (d_pow F E Y z env) as [A B]; try tauto end.
  - rewrite val_op by discriminate. apply exp_pos.
  - split; auto. rewrite B, (proj2 DE), val_op by discriminate. cbn [opval map on0]. rewrite ln_exp. field. apply Rgt_not_eq. apply exp_pos.
Qed.
Lemma b35 : back_rule F (str "deriv(x^y, z)       -> (y * deriv(x, z) * x^-1 + deriv(y, z) * ln(x)) * x^y").
Proof.
  start. by_two d_pow. rewrite power_m1 by lra. reflexivity.
Qed.
End T.
