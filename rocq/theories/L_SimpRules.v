(** The shipped rules, one by one *)
From Coq Require Import Reals Lra.
From Coquelicot Require Import Coquelicot.
From Flocq Require Import Core.
From Coq Require Import List Ascii String NArith ZArith Bool Lia Arith.
From Coq.Floats Require Import SpecFloat.
From Verif Require Import M_Base M_Tree M_Context M_Parser M_StringUtil M_TreeUtil M_Match M_RuleParsing M_Strtod M_Simplify S_Tree S_Match L_MatchRule P_Match S_Eval S_Simplify L_Simplify L_SimpPattern.
Import ListNotations.
Open Scope nat_scope.
Open Scope list_scope.
Open Scope res_scope.

(** parse_rule, stopped before the rule is built *)
Section Parts.
Variables (strtod : cstr -> option double) (c : ctx).
Definition rule_parts (s : cstr) : res (option (node * list node * node)) :=
  let where_pos := strstr s WHERE in
  match strstr s ARROW with
  | None => Ok None
  | Some a =>
    let cells1 := vset s a NUL in
    let cells := match where_pos with Some w => vset cells1 w NUL | None => cells1 end in
    constrs <- parse_constraints strtod c (option_map (fun w => text_at cells (w + List.length WHERE)) where_pos)
                 MATCHING_MAX_CONSTRAINTS ;;
    match constrs with
    | None => Ok None
    | Some constrs =>
      left_n <- parse_easy strtod c (text_at cells 0) ;;
      match left_n with
      | None => Ok None
      | Some left_n =>
        right_n <- parse_easy strtod c (text_at cells (a + List.length ARROW)) ;;
        match right_n with
        | None => Ok None
        | Some right_n => Ok (Some (left_n, constrs, right_n))
        end
      end
    end
  end.
Lemma rule_parts_spec : forall s r, parse_rule strtod c s = Ok (Some r) ->
  exists p cs a pat, rule_parts s = Ok (Some (p, cs, a)) /\ get_pattern p cs = PatOk pat /\ get_rule pat a = Some r.
Proof.
  intros s r. unfold parse_rule, rule_parts. cbv zeta. destruct (strstr s ARROW) as [a|]; [|discriminate].
  destruct (parse_constraints _ _ _ _) as [[cs|]| |]; cbn [rbind]; try discriminate.
  destruct (parse_easy strtod c (text_at _ 0)) as [[l|]| |]; cbn [rbind]; try discriminate.
  destruct (parse_easy strtod c (text_at _ (a + _))) as [[x|]| |]; cbn [rbind]; try discriminate.
  destruct (get_pattern l cs) as [pat|] eqn:G; try discriminate. intros H. injection H as H. repeat eexists; eauto.
Qed.
End Parts.

(** What matters of a rule *)
Definition rule_sem (s : cstr) : option (apat * list apat * apat) :=
  match rule_parts strtod the_prop_ctx s with
  | Ok (Some (p, cs, a)) => Some (strip p, map strip cs, strip a)
  | _ => None
  end.
Definition acovered (p : apat) (cs : list apat) : bool :=
  forallb (fun c => forallb (fun x => existsb (fun y => if name_dec x y then true else false) (avars p)) (avars c)) cs.
Definition is_avar (p : apat) : bool := match p with AVar _ => true | _ => false end.
Lemma acovered_spec : forall p cs, acovered (strip p) (map strip cs) = true -> covered p cs.
Proof.
  intros p cs H c x Ic Ix. unfold acovered in H. rewrite forallb_forall in H. specialize (H (strip c) (in_map _ _ _ Ic)).
  rewrite forallb_forall in H. rewrite <- avars_strip in Ix. specialize (H x Ix). rewrite existsb_exists in H.
  destruct H as (y & Iy & E). destruct (name_dec x y); [|discriminate E]. subst. rewrite <- avars_strip. exact Iy.
Qed.

Definition sound_rule (F : others) (s : cstr) : Prop :=
  match rule_sem s with
  | Some (p, cs, a) => is_avar p = false /\ acovered p cs = true /\ plain p = true /\ plain a = true /\ psound F p a
  | None => False
  end.
Definition agreeing_rule (F : others) (s : cstr) : Prop :=
  match rule_sem s with
  | Some (p, cs, a) => is_avar p = false /\ acovered p cs = true /\ plain p = true /\ plain a = true /\ pagree F p a
  | None => False
  end.
Lemma sound_rule_keep : forall F ck s r t t', sound_rule F s -> parse_rule strtod the_prop_ctx s = Ok (Some r) ->
  machine_sized t -> apply_rule ck t r = Ok (Some t') -> keep F t t'.
Proof.
  intros F ck s r t t' So Pa MS A. destruct (rule_parts_spec _ _ _ _ Pa) as (p & cs & a & pat & E & HP & HR).
  unfold sound_rule, rule_sem in So. rewrite E in So. destruct So as (Nv & Cov & Pp & Pa' & Ps).
  apply acovered_spec in Cov. eapply (psound_rule F ck p cs pat a r HP HR Cov) with (C := fun _ => True); eauto.
  destruct p; auto; discriminate Nv.
Qed.
Lemma agreeing_rule_agree : forall F ck s r t t', agreeing_rule F s -> parse_rule strtod the_prop_ctx s = Ok (Some r) ->
  machine_sized t -> apply_rule ck t r = Ok (Some t') -> agre F t t'.
Proof.
  intros F ck s r t t' So Pa MS A. destruct (rule_parts_spec _ _ _ _ Pa) as (p & cs & a & pat & E & HP & HR).
  unfold agreeing_rule, rule_sem in So. rewrite E in So. destruct So as (Nv & Cov & Pp & Pa' & Ps).
  apply acovered_spec in Cov. eapply (pagree_rule F ck p cs pat a r HP HR Cov) with (C := fun _ => True); eauto.
  destruct p; auto; discriminate Nv.
Qed.

(** ** Real arithmetic *)
Open Scope R_scope.
Lemma v0 : val (S754_zero false) = 0. Proof. reflexivity. Qed.
Lemma v1 : val (S754_finite false 4503599627370496 (-52)) = 1. Proof. unfold val, bpow. simpl. lra. Qed.
Lemma v2 : val (S754_finite false 4503599627370496 (-51)) = 2. Proof. unfold val, bpow. simpl. lra. Qed.
Lemma v05 : val (S754_finite false 4503599627370496 (-53)) = / 2. Proof. unfold val, bpow. simpl. lra. Qed.
Lemma v100 : val (S754_finite false 7036874417766400 (-46)) = 100. Proof. unfold val, bpow. simpl. lra. Qed.

Lemma Rsum_app : forall l m, Rsum (l ++ m) = Rsum l + Rsum m.
Proof. intros l m. induction l as [|x l IH]; simpl; [lra|]. unfold Rsum in *. simpl. lra. Qed.
Lemma Rprod_app : forall l m, Rprod (l ++ m) = Rprod l * Rprod m.
Proof. intros l m. induction l as [|x l IH]; unfold Rprod in *; simpl; [lra|]. rewrite IH. lra. Qed.
Lemma Rsum_cons : forall x l, Rsum (x :: l) = x + Rsum l. Proof. reflexivity. Qed.
Lemma Rprod_cons : forall x l, Rprod (x :: l) = x * Rprod l. Proof. reflexivity. Qed.
Lemma Rsum_nil : Rsum [] = 0. Proof. reflexivity. Qed.
Lemma Rprod_nil : Rprod [] = 1. Proof. reflexivity. Qed.

(** Powers *)
Lemma power_pos : forall x y, 0 < x -> power x y = Rpower x y.
Proof. intros x y H. unfold power. destruct (Rlt_dec 0 x); [reflexivity|lra]. Qed.
Lemma power_neg : forall x k, x < 0 -> power x (IZR k) = powerRZ x k.
Proof. intros x k H. unfold power. destruct (Rlt_dec 0 x); [lra|]. destruct (Rlt_dec x 0); [|lra]. rewrite Zfloor_IZR. reflexivity. Qed.
Lemma power_zero : forall y, power 0 y = 0.
Proof. intros y. unfold power. destruct (Rlt_dec 0 0); [lra|]. reflexivity. Qed.
Lemma power_Z : forall x k, x <> 0 -> power x (IZR k) = powerRZ x k.
Proof.
  intros x k H. destruct (Rtotal_order x 0) as [L|[L|L]]; [apply power_neg; auto|contradiction|].
  rewrite power_pos by auto. symmetry. apply powerRZ_Rpower. auto.
Qed.
Lemma ok_Z : forall x k, x <> 0 -> power_ok x (IZR k).
Proof. intros x k H. unfold power_ok. destruct (Rtotal_order x 0) as [L|[L|L]]; [right; right; split; eauto|contradiction|auto]. Qed.
Lemma ok_posZ : forall x k, 0 < IZR k -> power_ok x (IZR k).
Proof. intros x k H. destruct (Req_dec x 0) as [->|N]; [right; left; auto|apply ok_Z; auto]. Qed.
Lemma power_1 : forall x, power x 1 = x.
Proof. intros x. destruct (Req_dec x 0) as [->|N]; [apply power_zero|]. rewrite (power_Z x 1 N). apply powerRZ_1. Qed.
Lemma power_2 : forall x, power x 2 = x * x.
Proof. intros x. destruct (Req_dec x 0) as [->|N]; [rewrite power_zero; ring|]. rewrite (power_Z x 2 N). simpl. ring. Qed.
Lemma ok_1 : forall x, power_ok x 1. Proof. intros x. apply ok_posZ. lra. Qed.
Lemma ok_2 : forall x, power_ok x 2. Proof. intros x. apply ok_posZ. lra. Qed.
Lemma ok_0 : forall x, power_ok x 0 -> x <> 0. Proof. intros x [H|[[H K]|[H K]]]; lra. Qed.
Lemma power_0 : forall x, x <> 0 -> power x 0 = 1.
Proof. intros x H. rewrite (power_Z x 0 H). reflexivity. Qed.
Lemma ok_m1 : forall x, power_ok x (-(1)) <-> x <> 0.
Proof.
  intros x. replace (-(1)) with (IZR (-1)) by (simpl; lra). split; [|apply ok_Z]. intros [H|[[H K]|[H K]]]; try lra.
Qed.
Lemma power_m1 : forall x, x <> 0 -> power x (-(1)) = / x.
Proof. intros x H. replace (-(1)) with (IZR (-1)) by (simpl; lra). rewrite power_Z by auto. simpl. rewrite Rmult_1_r. reflexivity. Qed.
Lemma not_half : forall k, / 2 <> IZR k.
Proof. intros k H. assert (1 = IZR (2 * k)) by (rewrite mult_IZR; lra). apply eq_IZR in H0. lia. Qed.
Lemma ok_half : forall x, power_ok x (/ 2) <-> 0 <= x.
Proof.
  intros x. split.
  - intros [H|[[H K]|[H [k K]]]]; try lra. exfalso. exact (not_half k K).
  - intros [H|<-]; [left; auto|right; left; lra].
Qed.
Lemma power_half : forall x, 0 <= x -> power x (/ 2) = sqrt x.
Proof. intros x [H|<-]; [rewrite power_pos by auto; apply Rpower_sqrt; auto|]. rewrite power_zero, sqrt_0. reflexivity. Qed.
Lemma power_exp : forall x, power (exp 1) x = exp x.
Proof. intros x. rewrite power_pos by apply exp_pos. unfold Rpower. rewrite ln_exp, Rmult_1_r. reflexivity. Qed.
Lemma ok_pos : forall x y, 0 < x -> power_ok x y. Proof. intros. left. auto. Qed.
Lemma power_add : forall x y z, power_ok x y -> power_ok x z -> power_ok x (y + z) /\ power x (y + z) = power x y * power x z.
Proof.
  intros x y z Hy Hz. destruct Hy as [H|[[H K]|[H [k K]]]].
  - split; [left; auto|]. rewrite !power_pos by auto. apply Rpower_plus.
  - subst x. destruct Hz as [H'|[[H' K']|[H' _]]]; try lra. split; [right; left; lra|]. rewrite !power_zero. ring.
  - destruct Hz as [H'|[[H' K']|[H' [k' K']]]]; try lra. subst. rewrite <- plus_IZR. split; [right; right; eauto|].
    rewrite !power_neg by auto. apply powerRZ_add. lra.
Qed.
Lemma powerRZ_mult_all : forall x y k, x <> 0 -> y <> 0 -> powerRZ (x * y) k = powerRZ x k * powerRZ y k.
Proof.
  intros x y k Hx Hy. destruct k; simpl; [ring|apply Rpow_mult_distr|]. rewrite Rpow_mult_distr, Rinv_mult; auto.
Qed.
Lemma power_base : forall a b x, power_ok a x -> power_ok b x -> power_ok (a * b) x /\ power (a * b) x = power a x * power b x.
Proof.
  intros a b x Ha Hb.
  assert (Z : 0 < x -> a * b = 0 -> power_ok (a * b) x /\ power (a * b) x = power a x * power b x).
  { intros Hx E. rewrite E. split; [right; left; auto|]. rewrite power_zero. apply Rmult_integral in E. destruct E as [-> | ->]; rewrite power_zero; ring. }
  destruct Ha as [H|[[H K]|[H [k K]]]]; destruct Hb as [H'|[[H' K']|[H' [k' K']]]]; try (apply Z; auto; subst; ring).
  - assert (0 < a * b) by (apply Rmult_lt_0_compat; auto). split; [left; auto|]. rewrite !power_pos by auto. symmetry. apply Rpower_mult_distr; auto.
  - subst x. assert (a * b <> 0) by (apply Rmult_integral_contrapositive; split; lra). split; [apply ok_Z; auto|]. rewrite !power_Z by lra. apply powerRZ_mult_all; lra.
  - subst x. assert (a * b <> 0) by (apply Rmult_integral_contrapositive; split; lra). split; [apply ok_Z; auto|]. rewrite !power_Z by lra. apply powerRZ_mult_all; lra.
  - subst x. assert (a * b <> 0) by (apply Rmult_integral_contrapositive; split; lra). split; [apply ok_Z; auto|]. rewrite !power_Z by lra. apply powerRZ_mult_all; lra.
Qed.

Create HintDb sums.
Global Hint Rewrite Rsum_app Rprod_app Rsum_cons Rprod_cons Rsum_nil Rprod_nil app_nil_r Rplus_0_r Rmult_1_r : sums.
Ltac sem_open F :=
  match goal with |- ?P F ?s =>
    unfold P; let v := eval vm_compute in (rule_sem s) in
    replace (rule_sem s) with v by (vm_compute; reflexivity); cbv beta iota
  end.
Ltac side := split; [reflexivity|]; split; [reflexivity|]; split; [reflexivity|]; split; [reflexivity|].
Ltac single E H :=
  repeat match goal with
  | |- context [E (?c :: ?l)] =>
    assert_fails (constr_eq c "["%char); let r := fresh "r" in let Hr := fresh "Hr" in
    destruct (H (c :: l) ltac:(simpl; tauto) eq_refl) as [r Hr]; rewrite !Hr; clear Hr
  | |- context [E (?c :: ?l)] => let l' := fresh "l" in set (l' := E (c :: l)); clearbody l'
  end; clear H; try clear E.
Ltac reals := rewrite ?v0, ?v1, ?v2, ?v05, ?v100 in *.
Ltac sem_intro := let E := fresh "E" in let H := fresh "H" in intros E H;
  cbn [pvals pdefs flat_map app opval opdom on0 on1 on2 finite]; single E H; cbn [app on0 on1 on2 flat_map]; reals;
  autorewrite with sums.
Ltac ands := repeat match goal with H : _ /\ _ |- _ => destruct H end.
Ltac easy_rule := sem_intro; intros; ands; split; [repeat split; auto|f_equal; try ring; try lra; field; auto].

Lemma fold_min_le : forall l v, fold_left Rmin l v <= v /\ (forall x, In x l -> fold_left Rmin l v <= x) /\ (fold_left Rmin l v = v \/ In (fold_left Rmin l v) l).
Proof.
  induction l as [|a l IH]; intros v; simpl; [split; [lra|split; [tauto|auto]]|].
  destruct (IH (Rmin v a)) as (A & B & C). pose proof (Rmin_l v a). pose proof (Rmin_r v a). split; [lra|split].
  - intros x [<-|I]; [lra|auto].
  - destruct C as [C|C]; auto. rewrite C. unfold Rmin; destruct (Rle_dec v a); auto.
Qed.
Lemma fold_max_ge : forall l v, v <= fold_left Rmax l v /\ (forall x, In x l -> x <= fold_left Rmax l v) /\ (fold_left Rmax l v = v \/ In (fold_left Rmax l v) l).
Proof.
  induction l as [|a l IH]; intros v; simpl; [split; [lra|split; [tauto|auto]]|].
  destruct (IH (Rmax v a)) as (A & B & C). pose proof (Rmax_l v a). pose proof (Rmax_r v a). split; [lra|split].
  - intros x [<-|I]; [lra|auto].
  - destruct C as [C|C]; auto. rewrite C. unfold Rmax; destruct (Rle_dec v a); auto.
Qed.
(** Minimum and maximum depend on the set of operands only. *)
Lemma min_set : forall a l b m, (forall x, In x (a :: l) <-> In x (b :: m)) -> fold_left Rmin l a = fold_left Rmin m b.
Proof.
  intros a l b m H. destruct (fold_min_le l a) as (A & B & C). destruct (fold_min_le m b) as (A' & B' & C').
  assert (U : forall x, In x (a :: l) -> fold_left Rmin l a <= x) by (intros x [<-|I]; auto).
  assert (U' : forall x, In x (b :: m) -> fold_left Rmin m b <= x) by (intros x [<-|I]; auto).
  assert (In (fold_left Rmin l a) (a :: l)) by (destruct C as [-> | C]; simpl; auto).
  assert (In (fold_left Rmin m b) (b :: m)) by (destruct C' as [-> | C']; simpl; auto).
  apply Rle_antisym; [apply U; apply H; auto|apply U'; apply H; auto].
Qed.
Lemma max_set : forall a l b m, (forall x, In x (a :: l) <-> In x (b :: m)) -> fold_left Rmax l a = fold_left Rmax m b.
Proof.
  intros a l b m H. destruct (fold_max_ge l a) as (A & B & C). destruct (fold_max_ge m b) as (A' & B' & C').
  assert (U : forall x, In x (a :: l) -> x <= fold_left Rmax l a) by (intros x [<-|I]; auto).
  assert (U' : forall x, In x (b :: m) -> x <= fold_left Rmax m b) by (intros x [<-|I]; auto).
  assert (In (fold_left Rmax l a) (a :: l)) by (destruct C as [-> | C]; simpl; auto).
  assert (In (fold_left Rmax m b) (b :: m)) by (destruct C' as [-> | C']; simpl; auto).
  apply Rle_antisym; [apply U'; apply H; auto|apply U; apply H; auto].
Qed.
Lemma min_dup : forall l r l0 l1 d d', match l ++ r :: l0 ++ l1 with [] => d | v :: vs => fold_left Rmin vs v end
  = match l ++ r :: l0 ++ r :: l1 with [] => d' | v :: vs => fold_left Rmin vs v end.
Proof.
  intros l r l0 l1 d d'. assert (Q : forall x, In x (l ++ r :: l0 ++ l1) <-> In x (l ++ r :: l0 ++ r :: l1)) by (intros x; rewrite !in_app_iff; simpl; rewrite !in_app_iff; simpl; tauto).
  destruct (l ++ r :: l0 ++ l1) eqn:A; [destruct l; discriminate A|]. destruct (l ++ r :: l0 ++ r :: l1) eqn:B; [destruct l; discriminate B|]. apply min_set. exact Q.
Qed.
Lemma max_dup : forall l r l0 l1 d d', match l ++ r :: l0 ++ l1 with [] => d | v :: vs => fold_left Rmax vs v end
  = match l ++ r :: l0 ++ r :: l1 with [] => d' | v :: vs => fold_left Rmax vs v end.
Proof.
  intros l r l0 l1 d d'. assert (Q : forall x, In x (l ++ r :: l0 ++ l1) <-> In x (l ++ r :: l0 ++ r :: l1)) by (intros x; rewrite !in_app_iff; simpl; rewrite !in_app_iff; simpl; tauto).
  destruct (l ++ r :: l0 ++ l1) eqn:A; [destruct l; discriminate A|]. destruct (l ++ r :: l0 ++ r :: l1) eqn:B; [destruct l; discriminate B|]. apply max_set. exact Q.
Qed.

Section T.
Variable F : others.
Lemma s1 : sound_rule F (str "count(x,[xs]) -> 1 + count([xs])  ").
Proof. sem_open F; side; sem_intro; intros; ands. split; [tauto|]. f_equal. change (INR (List.length (r :: l)) = 1 + INR (List.length l)) || idtac. cbn [List.length]. rewrite S_INR. lra. Qed.
Lemma s7 : sound_rule F (str "x/y           -> x*y^(-1)").
Proof. sem_open F; side; sem_intro; intros; ands. rewrite ok_m1, power_m1 by auto. split; [repeat split; auto|f_equal; reflexivity]. Qed.
Lemma s8 : sound_rule F (str "log(x, e)     -> ln(x)").
Proof. sem_open F; side; sem_intro; intros; ands. rewrite ln_exp in *. split; [repeat split; auto|f_equal; field]. Qed.
Lemma s10 : sound_rule F (str "sqrt(x)       -> x^0.5").
Proof. sem_open F; side; sem_intro; intros; ands. rewrite ok_half, power_half by auto. split; [repeat split; auto|f_equal; reflexivity]. Qed.
Lemma s11 : sound_rule F (str "exp(x)        -> e^x").
Proof. sem_open F; side; sem_intro; intros; ands. rewrite power_exp. split; [repeat split; auto; apply ok_pos; apply exp_pos|reflexivity]. Qed.
Lemma s13 : sound_rule F (str "avg([xs])     -> sum([xs])/count([xs])   ").
Proof. sem_open F; side; sem_intro; intros; ands. split; [repeat split; auto|f_equal]. destruct l; [congruence|]. apply not_0_INR. discriminate. Qed.
Lemma s72 : sound_rule F (str "sum(x, y)^2 -> sum(prod(2,x,y), x^2, y^2)     WHERE type(x) == CONST").
Proof. sem_open F; side; sem_intro; intros; ands. rewrite !power_2. split; [repeat split; auto using ok_2|f_equal; ring]. Qed.
Lemma s73 : sound_rule F (str "sum(prod(2, x, y), x^2, y^2) -> sum(x, y)^2   WHERE type(x) != CONST").
Proof. sem_open F; side; sem_intro; intros; ands. rewrite !power_2. split; [repeat split; auto using ok_2|f_equal; ring]. Qed.
Lemma s74 : sound_rule F (str "sum(prod(2, y, x), x^2, y^2) -> sum(x, y)^2   WHERE type(x) != CONST").
Proof. sem_open F; side; sem_intro; intros; ands. rewrite !power_2. split; [repeat split; auto using ok_2|f_equal; ring]. Qed.
Lemma s75 : sound_rule F (str "sum(x^2, prod(2, x, y), y^2) -> sum(x, y)^2   WHERE type(x) != CONST").
Proof. sem_open F; side; sem_intro; intros; ands. rewrite !power_2. split; [repeat split; auto using ok_2|f_equal; ring]. Qed.
Lemma s76 : sound_rule F (str "sum(x^2, y^2, prod(2, y, x)) -> sum(x, y)^2   WHERE type(x) != CONST").
Proof. sem_open F; side; sem_intro; intros; ands. rewrite !power_2. split; [repeat split; auto using ok_2|f_equal; ring]. Qed.
Lemma s77 : sound_rule F (str "x^0                              -> 1").
Proof. sem_open F; side; sem_intro; intros; ands. rewrite power_0 by (apply ok_0; auto). auto. Qed.
Lemma s78 : sound_rule F (str "x^1                              -> x").
Proof. sem_open F; side; sem_intro; intros; ands. rewrite power_1. auto. Qed.
Lemma s80 : sound_rule F (str "prod([xs], x^cy, [ys], x^cz, [zs]) -> prod([xs], x^sum(cy,cz), [ys], [zs]) WHERE type(cy)==CONST ; type(cz)==CONST").
Proof. sem_open F; side; sem_intro; intros; ands. match goal with A : power_ok r r0, B : power_ok r r1 |- _ => destruct (power_add r r0 r1 A B) as [C ->] end. split; [repeat split; auto|f_equal; ring]. Qed.
Lemma s81 : sound_rule F (str "prod([xs], cy^x, [ys], cz^x, [zs]) -> prod([xs], (cy*cz)^x, [ys], [zs]) WHERE type(cy)==CONST ; type(cz)==CONST").
Proof. sem_open F; side; sem_intro; intros; ands. match goal with A : power_ok r r0, B : power_ok r1 r0 |- _ => destruct (power_base r r1 r0 A B) as [C ->] end. split; [repeat split; auto|f_equal; ring]. Qed.
Lemma s82 : sound_rule F (str "prod([xs], x, [ys], x, [zs])     -> prod([xs], x^2, [ys], [zs])").
Proof. sem_open F; side; sem_intro; intros; ands. rewrite power_2. split; [repeat split; auto using ok_2|f_equal; ring]. Qed.
Lemma s83 : sound_rule F (str "prod([xs], x, [ys], x^y, [zs])   -> prod([xs], x^sum(y,1), [ys], [zs])").
Proof. sem_open F; side; sem_intro; intros; ands. match goal with A : power_ok r r0 |- _ => destruct (power_add r r0 1 A (ok_1 r)) as [C ->] end. rewrite power_1. split; [repeat split; auto|f_equal; ring]. Qed.
Lemma s85 : sound_rule F (str "prod([xs], x^y, [ys], x, [zs])   -> prod([xs], x^sum(y,1), [ys], [zs])").
Proof. sem_open F; side; sem_intro; intros; ands. match goal with A : power_ok r r0 |- _ => destruct (power_add r r0 1 A (ok_1 r)) as [C ->] end. rewrite power_1. split; [repeat split; auto|f_equal; ring]. Qed.
Lemma s86 : sound_rule F (str "prod([xs], x^z, [ys], x^y, [zs]) -> prod([xs], x^sum(y,z), [ys], [zs])").
Proof. sem_open F; side; sem_intro; intros; ands. match goal with A : power_ok r r0, B : power_ok r r1 |- _ => destruct (power_add r r1 r0 B A) as [C ->] end. split; [repeat split; auto|f_equal; ring]. Qed.
Lemma s88 : sound_rule F (str "sum([xs], cos(x)^2, [ys], sin(x)^2, [zs])   -> sum(1, [xs], [ys], [zs])").
Proof. sem_open F; side; sem_intro; intros; ands. rewrite !power_2. split; [tauto|f_equal]. pose proof (sin2_cos2 r) as Q. unfold Rsqr in Q. lra. Qed.
Lemma s89 : sound_rule F (str "sum([xs], sin(x)^2, [ys], cos(x)^2, [zs])   -> sum(1, [xs], [ys], [zs])").
Proof. sem_open F; side; sem_intro; intros; ands. rewrite !power_2. split; [tauto|f_equal]. pose proof (sin2_cos2 r) as Q. unfold Rsqr in Q. lra. Qed.
Lemma s90 : sound_rule F (str "prod([xs], sin(x), [ys], cos(x)^-1, [zs])   -> prod([xs], tan(x), [ys], [zs])").
Proof. sem_open F; side; sem_intro; intros; ands. rewrite ok_m1 in *. rewrite power_m1 by auto. split; [tauto|f_equal]. unfold tan, Rdiv. ring. Qed.
Lemma s92 : sound_rule F (str "min([xs], x, [ys], x, [zs]) -> min([xs], x, [ys], [zs])").
Proof. sem_open F; side; sem_intro; intros; ands. split; [repeat split; auto; destruct l; discriminate|f_equal]. apply min_dup. Qed.
Lemma s93 : sound_rule F (str "max([xs], x, [ys], x, [zs]) -> max([xs], x, [ys], [zs])").
Proof. sem_open F; side; sem_intro; intros; ands. split; [repeat split; auto; destruct l; discriminate|f_equal]. apply max_dup. Qed.
Lemma s115 : sound_rule F (str "x^0.5         -> sqrt(x)").
Proof. sem_open F; side; sem_intro; intros; ands. rewrite ok_half in *. rewrite power_half by auto. auto. Qed.
Lemma s116 : sound_rule F (str "x^1           -> x").
Proof. sem_open F; side; sem_intro; intros; ands. rewrite power_1. auto. Qed.
Lemma s128 : sound_rule F (str "root(x, 2)    -> sqrt(x)").
Proof. sem_open F; side; sem_intro; intros; ands. replace (1 / 2) with (/ 2) in * by lra. rewrite power_half by auto. auto. Qed.
End T.
