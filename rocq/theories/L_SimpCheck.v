(** The shipped rules whose constraints matter *)
From Coq Require Import Reals Lra.
From Coquelicot Require Import Coquelicot.
From Flocq Require Import Core.
From Coq Require Import List Ascii String NArith ZArith Bool Lia Arith.
From Coq.Floats Require Import SpecFloat.
From Verif Require Import M_Base M_Tree M_Context M_Parser M_StringUtil M_TreeUtil M_Match M_RuleParsing M_Strtod M_Double M_Eval M_Simplify S_Tree S_Match L_Trie L_Tree L_Match L_MatchSem L_MatchRule L_MatchSub P_Match S_Eval S_Simplify L_Simplify L_SimpPattern L_SimpRules L_SimpDeriv.
Import ListNotations.
Open Scope list_scope.
Open Scope nat_scope.
Open Scope res_scope.

Definition Built (n : node) : Prop := checkless n = true.
Lemma Built_op : forall op cs t, Built (NOp op cs t) <-> o_addr op <> 58 /\ o_addr op <> 59 /\ Forall Built cs.
Proof.
  intros op cs t. unfold Built. cbn [checkless]. rewrite !andb_true_iff, !negb_true_iff, !Nat.eqb_neq, forallb_forall, Forall_forall. tauto.
Qed.
Lemma Built_down : forall op cs t, Built (NOp op cs t) -> Forall Built cs.
Proof. intros op cs t H. apply Built_op in H. tauto. Qed.
Lemma built_reduce : forall n op cb, o_addr op = 58 \/ o_addr op = 59 -> Built n -> tree_reduce_ops n op cb = n.
Proof.
  intros n op cb L. induction n as [v t|x i t|p cs t IH] using node_ind'; intros B; auto.
  apply Built_op in B. destruct B as (B1 & B2 & Bc). cbn [tree_reduce_ops].
  replace (o_addr p =? o_addr op) with false by (symmetry; apply Nat.eqb_neq; lia). f_equal.
  rewrite <- (map_id cs) at 2. apply map_ext_in. intros c Ic. rewrite Forall_forall in IH, Bc. auto.
Qed.
Lemma built_short : forall n op k, o_addr op = 58 \/ o_addr op = 59 -> Built n -> short_call n op k = false.
Proof.
  intros n op k L. induction n as [v t|x i t|p cs t IH] using node_ind'; intros B; auto.
  apply Built_op in B. destruct B as (B1 & B2 & Bc). cbn [short_call].
  replace (o_addr p =? o_addr op) with false by (symmetry; apply Nat.eqb_neq; lia). simpl.
  clear -IH Bc. induction cs as [|c cs IHc]; auto. inversion IH; inversion Bc; subst. simpl. rewrite H1 by auto. simpl. auto.
Qed.

Definition type_op : operator := match ctx_lookup_op the_prop_ctx (str "type") PFunction with Ok (Some op) => op | _ => op_of 0 end.
Definition equal_op : operator := match ctx_lookup_op the_prop_ctx (str "equal") PFunction with Ok (Some op) => op | _ => op_of 0 end.
Lemma type_found : ctx_lookup_op the_prop_ctx (str "type") PFunction = Ok (Some type_op). Proof. vm_compute. reflexivity. Qed.
Lemma equal_found : ctx_lookup_op the_prop_ctx (str "equal") PFunction = Ok (Some equal_op). Proof. vm_compute. reflexivity. Qed.
Lemma type_addr : o_addr type_op = 58. Proof. vm_compute. reflexivity. Qed.
Lemma equal_addr : o_addr equal_op = 59. Proof. vm_compute. reflexivity. Qed.

Lemma evals_closed : forall (S : Type) (lis : @listener S) n s s' v, evals lis s n s' (RVal v) -> var_names n = [].
Proof.
  intros S lis n. induction n as [v t|x i t|op cs t IH] using node_ind'; intros s s' v0 E; [reflexivity|inversion E|].
  inversion E as [| |? ? ? ? s1 vs ? ? Ea _| |]; subst. clear E. cbn [var_names]. revert s vs s1 Ea. induction cs as [|c cs IHc]; intros s vs s1 Ea; [reflexivity|].
  inversion Ea; subst. inversion IH; subst. cbn [flat_map]. erewrite H1 by eauto. simpl. eapply IHc; eauto.
Qed.

Section Check.
Variables (L : libm) (fuel : nat) (w : world).
Notation ck := (propositional_checker L fuel the_prop_ctx w).

Lemma check_unfold : forall t b, ck t = Ok b ->
  short_call t type_op 1 = false /\
  let t1 := tree_reduce_ops t type_op type_eval in
  short_call t1 equal_op 2 = false /\
  match tree_reduce (prop_listener L fuel) (Done (Ok w)) (tree_reduce_ops t1 equal_op equal_eval) with
  | (Done (Ok _), RVal v) => b = dneb v d0
  | (Done (Ok _), RFail _ _) => b = false
  | _ => False
  end.
Proof.
  intros t b. unfold propositional_checker. rewrite type_found, equal_found. cbn [rbind]. unfold reduce_calls.
  destruct (short_call t type_op 1); cbn [rbind]; [discriminate|].
  destruct (short_call (tree_reduce_ops t type_op type_eval) equal_op 2); cbn [rbind]; [discriminate|]. cbv zeta.
  destruct (tree_reduce _ _ _) as [[[w'| |]|] [v|e p]]; intros H; try discriminate H; repeat split; congruence.
Qed.

(** (Y mod 2) == 0 *)
Lemma is_even : forall Y eqo mo t1 t2 t3 t4, Built Y -> (var_names Y = [] -> exists v t, Y = NConst v t) -> o_id eqo = 60 -> o_addr eqo = 60 -> o_id mo = 10 -> o_addr mo < 58 ->
  ck (NOp eqo [NOp mo [Y; NConst (of_Z 2) t1] t2; NConst d0 t3] t4) = Ok true -> exists v t, Y = NConst v t /\ deqb (m_fmod L v (of_Z 2)) d0 = true.
Proof.
  intros Y eqo mo t1 t2 t3 t4 B Fo E1 E2 E3 E4 H. apply check_unfold in H. destruct H as (_ & _ & H).
  cbn [tree_reduce_ops map] in H. rewrite type_addr, E2 in H. cbn [Nat.eqb map tree_reduce_ops] in H.
  replace (o_addr mo =? 58) with false in H by (symmetry; apply Nat.eqb_neq; lia). cbn [tree_reduce_ops map] in H. rewrite equal_addr, E2 in H. cbn [Nat.eqb map] in H.
  replace (o_addr mo =? 59) with false in H by (symmetry; apply Nat.eqb_neq; lia).
  rewrite (built_reduce Y) in H by (rewrite ?type_addr; auto).
  rewrite (built_reduce Y) in H by (rewrite ?equal_addr; auto).
  destruct (tree_reduce (prop_listener L fuel) (Done (Ok w)) _) as [[[w'| |]|] [v|e p]] eqn:R; try contradiction; try discriminate H.
  assert (V : var_names Y = []).
  { apply reduce_sound in R. apply evals_closed in R. cbn [var_names flat_map] in R. rewrite !app_nil_r in R. exact R. }
  destruct (Fo V) as (y & ty & ->). exists y, ty. split; auto. revert R. cbn [tree_reduce prop_listener app]. unfold prop_op_evaluate at 1. rewrite E3. cbn [Nat.ltb Nat.leb NUM_ARITH_OPS].
  unfold arith_op_evaluate. rewrite E3. cbn [with2 ok]. cbn [Z.eqb]. cbn [prop_listener app]. unfold prop_op_evaluate. rewrite E1. 
  cbn [Nat.ltb Nat.leb NUM_ARITH_OPS Nat.sub with2 ok Z.eqb]. intros R. injection R as _ <-. fold (of_Z 2) in H. change (binary_round prec emax false 2 0) with (of_Z 2) in H. destruct (deqb (m_fmod L y (of_Z 2)) d0); auto.
Qed.
(** type(X) == CONST *)
Lemma is_const : forall X eqo tyo cno t1 t2 t3, Built X -> o_id eqo = 60 -> o_addr eqo = 60 -> o_addr tyo = 58 -> o_id cno = 62 -> o_addr cno = 62 ->
  ck (NOp eqo [NOp tyo [X] t1; NOp cno [] t2] t3) = Ok true -> exists v t, X = NConst v t.
Proof.
  intros X eqo tyo cno t1 t2 t3 B E1 E2 E3 E4 E5 H. apply check_unfold in H. destruct H as (_ & _ & H).
  cbn [tree_reduce_ops map] in H. rewrite type_addr, E2, E3, E5 in H. cbn [Nat.eqb map tree_reduce_ops] in H. rewrite equal_addr, E2, E5 in H. cbn [Nat.eqb map] in H.
  rewrite (built_reduce X) in H by (rewrite ?type_addr; auto).
  cbn [tree_reduce prop_listener app] in H. unfold prop_op_evaluate in H. rewrite E4 in H. simpl in H. unfold prop_op_evaluate in H. rewrite E1 in H. simpl in H.
  destruct X as [v t|x i t|op cs t]; [eauto|vm_compute in H; discriminate H|vm_compute in H; discriminate H].
Qed.
(** type(X) != OP *)
Lemma is_leaf : forall X neo tyo opo t1 t2 t3, Built X -> o_id neo = 61 -> o_addr neo = 61 -> o_addr tyo = 58 -> o_id opo = 64 -> o_addr opo = 64 ->
  ck (NOp neo [NOp tyo [X] t1; NOp opo [] t2] t3) = Ok true -> (exists v t, X = NConst v t) \/ (exists x i t, X = NVar x i t).
Proof.
  intros X eqo tyo cno t1 t2 t3 B E1 E2 E3 E4 E5 H. apply check_unfold in H. destruct H as (_ & _ & H).
  cbn [tree_reduce_ops map] in H. rewrite type_addr, E2, E3, E5 in H. cbn [Nat.eqb map tree_reduce_ops] in H. rewrite equal_addr, E2, E5 in H. cbn [Nat.eqb map] in H.
  rewrite (built_reduce X) in H by (rewrite ?type_addr; auto).
  cbn [tree_reduce prop_listener app] in H. unfold prop_op_evaluate in H. rewrite E4 in H. simpl in H. unfold prop_op_evaluate in H. rewrite E1 in H. simpl in H.
  destruct X as [v t|x i t|op cs t]; [eauto|eauto|vm_compute in H; discriminate H].
Qed.
(** equal(Y, -X) || equal(X, -Y) *)
Lemma are_opposite : forall X Y oro e1 e2 n1 n2 t1 t2 t3 t4 t5, Built X -> Built Y -> o_id oro = 69 -> o_addr oro = 69 -> o_addr e1 = 59 -> o_addr e2 = 59 ->
  o_addr n1 < 58 -> o_addr n2 < 58 ->
  ck (NOp oro [NOp e1 [Y; NOp n1 [X] t1] t2; NOp e2 [X; NOp n2 [Y] t3] t4] t5) = Ok true ->
  tree_equals Y (NOp n1 [X] t1) = true \/ tree_equals X (NOp n2 [Y] t3) = true.
Proof.
  intros X Y oro e1 e2 n1 n2 t1 t2 t3 t4 t5 BX BY E1 E2 E3 E4 E5 E6 H. apply check_unfold in H. destruct H as (_ & _ & H).
  cbn [tree_reduce_ops map] in H. rewrite type_addr, E2, E3, E4 in H. cbn [Nat.eqb map tree_reduce_ops] in H.
  replace (o_addr n1 =? 58) with false in H by (symmetry; apply Nat.eqb_neq; lia). replace (o_addr n2 =? 58) with false in H by (symmetry; apply Nat.eqb_neq; lia).
  rewrite !(built_reduce _ type_op) in H by (rewrite ?type_addr; auto).
  cbn [tree_reduce_ops map] in H. rewrite equal_addr, E2, E3, E4 in H. cbn [Nat.eqb] in H.
  replace (o_addr n1 =? 59) with false in H by (symmetry; apply Nat.eqb_neq; lia). replace (o_addr n2 =? 59) with false in H by (symmetry; apply Nat.eqb_neq; lia).
  rewrite !(built_reduce _ equal_op) in H by (rewrite ?equal_addr; auto).
  cbn [tree_reduce prop_listener app] in H. unfold prop_op_evaluate in H. rewrite E1 in H. cbn [equal_eval] in H.
  destruct (tree_equals Y (NOp n1 [X] t1)); auto. destruct (tree_equals X (NOp n2 [Y] t3)); auto.
Qed.
End Check.

Open Scope R_scope.
(** A rule whose constraints are used *)
Section From.
Variables (F : others) (L : libm) (fuel : nat) (w : world).
Notation ck := (propositional_checker L fuel the_prop_ctx w).
Variables (p : node) (cs : list node) (pat : pattern) (after : node) (r : rule).
Hypothesis (HP : get_pattern p cs = PatOk pat) (HR : get_rule pat after = Some r) (Cov : covered p cs).
Hypothesis Nv : is_var p = false.
Variable Q : node -> Prop.
Hypothesis Qdown : forall op cs t, Q (NOp op cs t) -> Forall Q cs.
Lemma rel_from : forall b,
  (forall s sub new k, fits s p -> (forall x, In x (var_names p) -> Forall Q (s x)) -> (var_names p <> [] -> Forall (holds ck s) cs) ->
     Forall2 alike (inst s p) [sub] -> inst s (located k after) = [new] -> rel F b sub new) ->
  forall t t', Q t -> machine_sized t -> apply_rule ck t r = Ok (Some t') -> rel F b t t'.
Proof.
  intros b H t t' B MS A.
  destruct (apply_rule_from Q Qdown ck p cs pat after r HP HR t t' B MS Cov A) as (q & sub & s & new & Fi & Al & Cs & Hin & Re & _ & Bs).
  assert (K : rel F b sub new) by (apply (H s sub new (location sub)); auto).
  assert (V : is_var sub = false).
  { destruct p as [v t0|x i t0|op ps t0]; try discriminate Nv; inversion Al as [|? ? ? ? A1]; subst; inversion A1; subst; reflexivity. }
  assert (I : incl (var_names new) (var_names sub)).
  { intros y Iy. assert (Iy' : In y (flat_map var_names (inst s (located (location sub) after)))).
    { rewrite Hin. simpl. rewrite app_nil_r. exact Iy. }
    apply inst_names in Iy'. destruct Iy' as (x & Ix & Iy'). rewrite located_names in Ix. apply (after_vars p cs pat after r HP HR) in Ix.
    assert (Z : In y (flat_map var_names (inst s p))) by (apply inst_names; eauto).
    rewrite (alikes_names _ _ Al) in Z. simpl in Z. rewrite app_nil_r in Z. exact Z. }
  destruct b; simpl in *.
  - eapply keep_cong; eauto.
  - eapply agre_cong; eauto.
Qed.
End From.

(** The derivative of z^c wherever that and z^(c-1) are defined *)
Lemma powerRZ_derive : forall x k, x <> 0 -> is_derive (fun u => powerRZ u k) x (IZR k * powerRZ x (k - 1)).
Proof.
  intros x k N. destruct k as [|p|p].
  - replace (0 * _) with 0 by (simpl; ring). apply (is_derive_const 1).
  - cbn [powerRZ]. assert (E : powerRZ x (Z.pos p - 1) = x ^ Init.Nat.pred (Pos.to_nat p)).
    { replace (Z.pos p - 1)%Z with (Z.of_nat (Init.Nat.pred (Pos.to_nat p))) by lia. symmetry. apply pow_powerRZ. }
    rewrite E. replace (IZR (Z.pos p)) with (INR (Pos.to_nat p)) by (rewrite INR_IZR_INZ, positive_nat_Z; reflexivity).
    auto_derive; auto. ring.
  - cbn [powerRZ]. assert (Np : x ^ Pos.to_nat p <> 0) by (apply pow_nonzero; auto).
    assert (E : powerRZ x (Z.neg p - 1) = / (x ^ Pos.to_nat p * x)).
    { replace (Z.neg p - 1)%Z with (Z.neg (p + 1)) by lia. cbn [powerRZ]. rewrite Pos2Nat.inj_add. change (Pos.to_nat 1) with 1%nat. rewrite pow_add, pow_1. reflexivity. }
    rewrite E. replace (IZR (Z.neg p)) with (- INR (Pos.to_nat p)) by (rewrite INR_IZR_INZ, positive_nat_Z, <- opp_IZR; reflexivity).
    auto_derive; [auto|]. assert (Hp : x ^ Pos.to_nat p = x * x ^ Init.Nat.pred (Pos.to_nat p)).
    { destruct (Pos2Nat.is_succ p) as [m ->]. reflexivity. }
    rewrite Hp. assert (x ^ Init.Nat.pred (Pos.to_nat p) <> 0) by (apply pow_nonzero; auto). field. auto.
Qed.
Lemma power_derive : forall x c, locally x (fun u => power_ok u c) -> power_ok x (c - 1) -> is_derive (fun u => power u c) x (c * power x (c - 1)).
Proof.
  intros x c Lc Ok. destruct (Rtotal_order x 0) as [H|[H|H]].
  - destruct Ok as [A|[[A _]|[_ [k K]]]]; [lra|lra|]. assert (Ec : c = IZR (k + 1)) by (rewrite plus_IZR; lra). rewrite Ec in *.
    replace (IZR (k + 1) - 1) with (IZR k) by (rewrite plus_IZR; lra). rewrite power_neg by auto.
    replace k with (k + 1 - 1)%Z at 2 by lia. eapply is_derive_ext_loc; [|apply powerRZ_derive; lra].
    eapply filter_imp; [|exact (gt_near 0 x H)]. intros u Hu. symmetry. apply power_neg. auto.
  - subst x. destruct Ok as [A|[[_ A]|[A _]]]; try lra.
    assert (Q : exists k, c = IZR k).
    { destruct Lc as [eps Le]. specialize (Le (- (eps / 2))). assert (Be : ball 0 eps (- (eps / 2))).
      { unfold ball; simpl; unfold AbsRing_ball, abs, minus, plus, opp; simpl. rewrite Ropp_0, Rplus_0_r, Rabs_Ropp, Rabs_pos_eq; destruct eps; simpl; lra. }
      specialize (Le Be). destruct eps as [e He]; simpl in *. destruct Le as [B|[[B _]|[_ B]]]; try lra. exact B. }
    destruct Q as [k ->]. replace (IZR k - 1) with (IZR (k - 1)) in * by (rewrite minus_IZR; lra). apply lt_IZR in A.
    rewrite power_zero, Rmult_0_r.
    assert (Ek : exists n, k = Z.of_nat (S (S n))) by (exists (Z.to_nat (k - 2)); lia). destruct Ek as [n ->].
    eapply is_derive_ext with (f := fun u => u ^ S (S n)).
    + intros u. destruct (Req_dec u 0) as [->|Nu]; [rewrite power_zero; simpl; ring|]. rewrite power_Z by auto. apply pow_powerRZ.
    + auto_derive; auto. simpl. ring.
  - assert (E : locally x (fun u => Rpower u c = power u c)).
    { eapply filter_imp; [|exact (lt_near 0 x H)]. intros u Hu. symmetry. apply power_pos. auto. }
    eapply is_derive_ext_loc; [exact E|]. rewrite power_pos by auto. apply is_derive_Reals. apply derivable_pt_lim_power. auto.
Qed.

(** Expressions whose parts without variables are numbers: what the evaluation of constant parts leaves *)
Definition Even (n : node) : Prop := Built n /\ forall q sub, subtree n q = Some sub -> var_names sub = [] -> exists v t, sub = NConst v t.
Lemma even_down : forall op cs t, Even (NOp op cs t) -> Forall Even cs.
Proof.
  intros op cs t [B E]. pose proof (Built_down _ _ _ B) as Bc. rewrite Forall_forall in *. intros c Ic. split; auto. intros q sub Hs.
  destruct (In_nth_error _ _ Ic) as [i Hi]. apply (E (i :: q)). cbn [subtree]. rewrite Hi. exact Hs.
Qed.

Section Rules.
Variables (F : others) (L : libm) (fuel : nat) (w : world).
Notation ck := (propositional_checker L fuel the_prop_ctx w).
Notation value := (value F).
Notation defined := (defined F).
(** What the rule with this text does to expressions of a kind *)
Definition does_to (Q : node -> Prop) (b : bool) (s : cstr) : Prop := forall r t t', parse_rule strtod the_prop_ctx s = Ok (Some r) -> Q t -> machine_sized t ->
  apply_rule ck t r = Ok (Some t') -> rel F b t t'.
Notation does := (does_to Built).
Lemma does_from : forall (Q : node -> Prop), (forall op cs t, Q (NOp op cs t) -> Forall Q cs) ->
  forall b s p cs a, rule_parts strtod the_prop_ctx s = Ok (Some (p, cs, a)) -> covered p cs -> is_var p = false ->
  (forall s, (forall x, In x (avars (strip p)) -> is_list x = false -> exists t, s x = [t]) ->
     (forall x, In x (var_names p) -> Forall Q (s x)) -> (var_names p <> [] -> Forall (holds ck s) cs) ->
     forall sub new, build s (strip p) = [sub] -> build s (strip a) = [new] -> rel F b sub new) -> does_to Q b s.
Proof.
  intros Q Qdown b s p cs a E Cov Nv H r t t' Pa B MS A. destruct (rule_parts_spec _ _ _ _ Pa) as (p' & cs' & a' & pat & E' & HP & HR).
  rewrite E in E'. injection E' as <- <- <-. revert B MS A. apply (rel_from F L fuel w p cs pat a r HP HR Cov Nv Q Qdown).
  intros s0 sub new k Fi Bs Hc Al Hin. destruct (build_two F p a s0 sub new k Al Hin) as (sub' & new' & B1 & B2 & S1 & S2).
  pose proof (H s0 (fits_one p s0 Fi) Bs Hc sub' new' B1 B2) as G.
  destruct b; simpl in *; intros env D; [|intros D']; destruct (S1 env) as [V1 D1]; destruct (S2 env) as [V2 D2]; rewrite V1, V2.
  - destruct (G env) as [X Y]; tauto.
  - apply G; tauto.
Qed.
Ltac parts_of s := let v := eval vm_compute in (rule_parts strtod the_prop_ctx s) in
  match v with Ok (Some (?p, ?cs, ?a)) => match goal with |- does_to ?Q _ _ => apply (does_from Q ltac:(first [exact Built_down|exact even_down]) _ s p cs a) end;
    [vm_compute; reflexivity|apply acovered_spec; vm_compute; reflexivity|reflexivity|] end.
Ltac open_does := match goal with |- does_to _ _ ?s => parts_of s end;
  let s := fresh "s" in let Hs := fresh "Hs" in let Bs := fresh "Bs" in let Hc := fresh "Hc" in let sub := fresh "sub" in let new := fresh "new" in
  let B1 := fresh "B1" in let B2 := fresh "B2" in
  intros s Hs Bs Hc sub new B1 B2; cbn [strip map o_id] in *; cbn [build flat_map app] in B1, B2.
Ltac holding Hc := 
  let H := fresh "Hold" in
  assert (H : Forall (holds ck _) _) by (apply Hc; discriminate); clear Hc;
  repeat match goal with
  | G : Forall _ (_ :: _) |- _ => apply Forall_cons_iff in G; destruct G as [? ?]
  | G : Forall _ [] |- _ => clear G
  | G : holds _ _ _ |- _ => let t := fresh "ct" in destruct G as (t & ? & ?)
  end.
Lemma d_const : forall v t z env, finite v -> D F (NConst v t) z env /\ d F (NConst v t) z env = 0.
Proof.
  intros v t z env H. split; [split|].
  - apply everywhere. intros u. exact H.
  - apply (ex_derive_const (val v)).
  - exact (Derive_const (val v) (env z)).
Qed.
Lemma d_same : forall z i t env, D F (NVar z i t) z env /\ d F (NVar z i t) z env = 1.
Proof.
  intros z i t env. assert (Q : forall u, u = value (NVar z i t) (upd env z u)). { intros u. cbn [S_Simplify.value]. rewrite upd_same. reflexivity. }
  split; [split|].
  - apply everywhere. intros u. exact I.
  - eapply ex_derive_ext; [|apply (ex_derive_id (K:=R_AbsRing))]. exact Q.
  - unfold d. rewrite <- (Derive_ext _ _ (env z) Q). apply Derive_id.
Qed.
Lemma d_other : forall x i t z env, x <> z -> D F (NVar x i t) z env /\ d F (NVar x i t) z env = 0.
Proof.
  intros x i t z env N. assert (Q : forall u, env x = value (NVar x i t) (upd env z u)). { intros u. cbn [S_Simplify.value]. rewrite upd_other by auto. reflexivity. }
  split; [split|].
  - apply everywhere. intros u. exact I.
  - eapply ex_derive_ext; [|apply (ex_derive_const (env x))]. exact Q.
  - unfold d. rewrite <- (Derive_ext _ _ (env z) Q). apply Derive_const.
Qed.
Lemma c20 : does false (str "deriv(x, x)         -> 1").
Proof.
  open_does. destruct (Hs (str "x")) as [X EX]; [simpl; tauto|reflexivity|]. cbn [str list_ascii_of_string] in *. rewrite EX in *.
  cbn [app] in *. injection B1 as <-. injection B2 as <-. intros env H H'. destruct (dv_cases F X X env H) as (z & i & t & -> & _).
  rewrite dv_val. rewrite (proj2 (d_same z i t env)). apply v1.
Qed.
Lemma c22 : does false (str "deriv(cx*y, y)      -> cx              WHERE type(cx) == CONST").
Proof.
  open_does. destruct (Hs (str "cx")) as [X EX]; [simpl; tauto|reflexivity|]. destruct (Hs (str "y")) as [Y EY]; [simpl; tauto|reflexivity|].
  pose proof (Bs (str "cx") ltac:(simpl; tauto)) as BX. cbn [str list_ascii_of_string] in *. rewrite EX, EY in *. holding Hc.
  match goal with G : inst s _ = [ct] |- _ => cbn [inst flat_map] in G; rewrite EX in G; cbn [app] in G; injection G as <- end.
  match goal with G : ck _ = Ok true |- _ => apply is_const in G; auto; destruct G as (v & t0 & ->) end.
  cbn [app] in *. injection B1 as <-. injection B2 as <-. intros env H H'. destruct (dv_cases F _ Y env H) as (z & i & t & -> & _).
  rewrite dv_val. destruct (d_const v t0 z env) as [A1 A2]; [exact H'|]. destruct (d_same z i t env) as [A3 A4].
  destruct (d_mul F (NConst v t0) (NVar z i t) z env A1 A3) as [_ ->]. rewrite A2, A4. cbn [S_Simplify.value]. ring.
Qed.
Lemma c36 : does false (str "deriv(ln(x), z)     -> deriv(x, z)*x^(-1)").
Proof.
  open_does. destruct (Hs (str "x")) as [X EX]; [simpl; tauto|reflexivity|]. destruct (Hs (str "z")) as [Z EZ]; [simpl; tauto|reflexivity|].
  cbn [str list_ascii_of_string] in *. rewrite EX, EZ in *.
  cbn [app] in *. injection B1 as <-. injection B2 as <-. intros env H H'. destruct (dv_cases F _ Z env H) as (z & i & t & -> & Q & _).
  assert (P : 0 < value X env).
  { apply locally_singleton in Q. apply (proj2 (at_same F _ env z)) in Q. rewrite def_op in Q by discriminate. destruct Q as [_ Q]. exact Q. }
  rewrite def_op in H' by discriminate. destruct H' as [H' _]. apply Forall_cons_iff in H'. destruct H' as [H' _]. rewrite dv_def in H'.
  rewrite dv_val, (proj2 (d_ln F X z env H' P)). rewrite val_op by discriminate. cbn [opval map on2]. rewrite dv_val, val_op by discriminate. cbn [opval map on2].
  rewrite val_op by discriminate. cbn [opval map on1 S_Simplify.value]. rewrite v1, power_m1 by lra. reflexivity.
Qed.

(** deriv(x, z) -> 0 comes after deriv(x, x) -> 1 *)
Lemma subtree_app : forall q q' t, subtree t (q ++ q') = match subtree t q with Some u => subtree u q' | None => None end.
Proof. induction q as [|i q IH]; intros q' t; [reflexivity|]. cbn [app subtree]. destruct t as [| |op ds t]; auto. destruct (nth_error ds i); auto. Qed.
Lemma c21 : forall r1 r t t', parse_rule strtod the_prop_ctx same_rule = Ok (Some r1) -> apply_rule ck t r1 = Ok None ->
  parse_rule strtod the_prop_ctx zero_rule = Ok (Some r) -> checkless t = true -> machine_sized t ->
  (forall q x i k, subtree t q = Some (NVar x i k) -> i = 0%nat) ->
  apply_rule ck t r = Ok (Some t') -> agre F t t'.
Proof.
  intros r1 r t t' P1 A1 P2 B MS Ids A2.
  destruct (rule_parts_spec _ _ _ _ P1) as (p1 & cs1 & a1 & pat1 & E1 & HP1 & HR1).
  destruct (rule_parts_spec _ _ _ _ P2) as (p2 & cs2 & a2 & pat2 & E2 & HP2 & HR2).
  let v := eval vm_compute in (rule_parts strtod the_prop_ctx same_rule) in
    match v with Ok (Some (?p, ?cs, ?a)) => assert (X1 : rule_parts strtod the_prop_ctx same_rule = Ok (Some (p, cs, a))) by (vm_compute; reflexivity) end.
  let v := eval vm_compute in (rule_parts strtod the_prop_ctx zero_rule) in
    match v with Ok (Some (?p, ?cs, ?a)) => assert (X2 : rule_parts strtod the_prop_ctx zero_rule = Ok (Some (p, cs, a))) by (vm_compute; reflexivity) end.
  rewrite E1 in X1. injection X1 as -> -> ->. rewrite E2 in X2. injection X2 as -> -> ->. clear E1 E2 P1 P2.
  match type of HP2 with get_pattern ?p ?cs = _ => assert (Cov : covered p cs) by (apply acovered_spec; vm_compute; reflexivity);
    destruct (apply_rule_from Built Built_down ck p cs pat2 _ r HP2 HR2 t t' B MS Cov A2) as (q & sub & s & new & Fi & Al & Cs & Hin & Re & Sb & Bs) end.
  destruct (s (str "x")) as [|X [|]] eqn:EX; try (specialize (Fi (str "x") ltac:(simpl; tauto) ltac:(intros [y E]; discriminate E)); rewrite EX in Fi; discriminate Fi).
  destruct (s (str "z")) as [|Z [|]] eqn:EZ; try (specialize (Fi (str "z") ltac:(simpl; tauto) ltac:(intros [y E]; discriminate E)); rewrite EZ in Fi; discriminate Fi).
  pose proof (Bs (str "x") ltac:(simpl; tauto)) as BX. rewrite EX in BX. cbn [str list_ascii_of_string] in *.
  cbn [inst flat_map located] in Al, Hin. rewrite EX, EZ in *. cbn [app] in *. injection Hin as <-.
  inversion Al as [|? ? ? ? Al1]; subst. inversion Al1 as [| |? op' ? ds ? k Eid Alc]; subst. inversion Alc as [|? X' ? ? AX Alc2]; subst. inversion Alc2 as [|? Z' ? ? AZ Alc3]; subst. inversion Alc3; subst.
  assert (Hold : Forall (holds ck s) _) by (apply Cs; discriminate). apply Forall_cons_iff in Hold. destruct Hold as [[ct [Ec Hc]] _].
  cbn [inst flat_map] in Ec. rewrite EX in Ec. cbn [app] in Ec. injection Ec as <-. apply is_leaf in Hc; auto. 2:{ inversion BX; auto. }
  eapply (agre_cong F q (NOp op' [X'; Z'] k) _ t t'); [|reflexivity|exact Re|].
  - intros env D0 _. destruct (defined_3 F op' [X'; Z'] k env (eq_sym Eid) D0) as (e & z & i & u & E). injection E as -> ->.
    rewrite (value_3 F) by auto. rewrite (defined_3' F) in D0 by auto. destruct D0 as [D0 _]. inversion AZ; subst.
    destruct Hc as [(v & t1 & ->)|(x & j & t1 & ->)].
    + inversion AX; subst. assert (Fv : finite w0) by (apply locally_singleton in D0; exact D0).
      etransitivity; [|symmetry; exact (proj2 (d_const w0 u0 z env Fv))]. apply v0.
    + inversion AX; subst. destruct (name_dec x z) as [->|N].
      * exfalso. pose proof (Ids (q ++ [0%nat]) z j u0) as I1. pose proof (Ids (q ++ [1%nat]) z i u) as I2.
        rewrite (subtree_app q) in I1. rewrite (subtree_app q) in I2. rewrite Sb in I1, I2. specialize (I1 eq_refl). specialize (I2 eq_refl). subst i j.
        match type of HP1 with get_pattern ?p ?cs = _ => assert (Cov1 : covered p cs) by (apply acovered_spec; vm_compute; reflexivity);
          pose proof (C34_apply_rule ck p cs pat1 _ r1 t None HP1 HR1 MS Cov1 A1 q _ (fun _ => [NVar z 0 0]) Sb) as NS end.
        apply NS. split; [|split].
        -- intros y _ _. reflexivity.
        -- cbn [inst flat_map app]. constructor; auto. unfold teq. cbn [tree_equals]. rewrite Eid. cbn [List.length]. rewrite Nat.eqb_refl. cbn [Nat.eqb andb tree_equals].
           rewrite (proj2 (streqb_eq z z) eq_refl). reflexivity.
        -- intros s' _. constructor.
      * etransitivity; [|symmetry; exact (proj2 (d_other x j u0 z env N))]. apply v0.
  - left. intros y Iy. destruct Iy.
Qed.

Lemma c23 : does false (str "deriv(cx * z^cy, z) -> cx*cy*z^(cy-1)  WHERE type(cx) == CONST ; type(cy) == CONST").
Proof.
  open_does. destruct (Hs (str "cx")) as [X EX]; [simpl; tauto|reflexivity|]. destruct (Hs (str "cy")) as [Y EY]; [simpl; tauto|reflexivity|].
  destruct (Hs (str "z")) as [Z EZ]; [simpl; tauto|reflexivity|].
  pose proof (Bs (str "cx") ltac:(simpl; tauto)) as BX. pose proof (Bs (str "cy") ltac:(simpl; tauto)) as BY. cbn [str list_ascii_of_string] in *. rewrite EX, EY, EZ in *. holding Hc.
  repeat match goal with G : inst s _ = [_] |- _ => cbn [inst flat_map] in G; rewrite ?EX, ?EY in G; cbn [app] in G; injection G as <- end.
  repeat match goal with G : ck _ = Ok true |- _ => apply is_const in G; auto; destruct G as (? & ? & ->) end.
  cbn [app] in *. injection B1 as <-. injection B2 as <-. intros env H H'. destruct (dv_cases F _ Z env H) as (z & i & t & -> & Q & _).
  match goal with |- context [NConst ?a ?b :: NConst ?c ?e :: nil] => set (c1 := a) in *; set (c2 := c) in * end.
  change ((val c1 * val c2) * power (env z) (val c2 - val (S754_finite false 4503599627370496 (-52))) = Derive (fun u => val c1 * power (upd env z u z) (val c2)) (env z)).
  rewrite v1, Derive_scal, (Derive_ext _ (fun u => power u (val c2))) by (intros u; rewrite upd_same; reflexivity).
  assert (K1 : locally (env z) (fun u => power_ok u (val c2))); [|assert (K2 : power_ok (env z) (val c2 - 1)); [|
    pose proof (is_derive_unique _ _ _ (power_derive (env z) (val c2) K1 K2)) as U; etransitivity; [|apply f_equal; symmetry; exact U]; ring]].
  - eapply filter_imp; [|exact Q]. intros u Du. rewrite def_op in Du by discriminate. destruct Du as [Du _]. apply Forall_cons_iff in Du. destruct Du as [_ Du].
    apply Forall_cons_iff in Du. destruct Du as [Du _]. rewrite def_op in Du by discriminate. destruct Du as [_ Du]. cbn [map opdom on2 S_Simplify.value] in Du. rewrite upd_same in Du. exact Du.
  - rewrite def_op in H' by discriminate. destruct H' as [Du _]. apply Forall_cons_iff in Du. destruct Du as [_ Du]. 
    apply Forall_cons_iff in Du. destruct Du as [Du _]. rewrite def_op in Du by discriminate. destruct Du as [_ Du]. cbn [map opdom on2] in Du. rewrite val_op in Du by discriminate.
    cbn [map opval on2 S_Simplify.value] in Du. rewrite v1 in Du. exact Du.
Qed.
Lemma c64 : does true (str "sum([xs], x, [ys], y, [zs]) -> sum([xs], [ys], [zs])  WHERE equal(y,-x) || equal(x,-y)").
Proof.
  open_does. destruct (Hs (str "x")) as [X EX]; [simpl; tauto|reflexivity|]. destruct (Hs (str "y")) as [Y EY]; [simpl; tauto|reflexivity|].
  pose proof (Bs (str "x") ltac:(simpl; tauto)) as BX. pose proof (Bs (str "y") ltac:(simpl; tauto)) as BY. cbn [str list_ascii_of_string] in *. rewrite EX, EY in *. holding Hc.
  repeat match goal with G : inst s _ = [_] |- _ => cbn [inst flat_map] in G; rewrite ?EX, ?EY in G; cbn [app] in G; injection G as <- end.
  match goal with G : ck _ = Ok true |- _ => apply are_opposite in G; auto; try (cbn [o_addr]; lia); rename G into Op end.
  injection B1 as <-. injection B2 as <-. intros env H. rewrite !app_nil_r in *. 
  assert (V : value X env + value Y env = 0).
  { destruct Op as [Op|Op]; apply teq_alike in Op; pose proof (proj1 (alike_sem F _ _ Op env)) as Q; rewrite (value_other F) in Q by discriminate; cbn [map opval on1 o_id] in Q; lra. }
  rewrite def_op in H |- * by discriminate. rewrite !val_op by discriminate. cbn [opdom opval]. destruct H as [H _].
  rewrite !Forall_app, ?Forall_cons_iff in *. rewrite Forall_app, Forall_cons_iff in H.
  repeat (rewrite !map_app; cbn [map]). repeat rewrite ?Rsum_app, ?Rsum_cons. split; [tauto|]. lra.
Qed.
Lemma c94 : fmod_exact L -> does_to Even true (str "(-x)^y -> x^y WHERE (y mod 2) == 0").
Proof.
  intros Fm. open_does. destruct (Hs (str "x")) as [X EX]; [simpl; tauto|reflexivity|]. destruct (Hs (str "y")) as [Y EY]; [simpl; tauto|reflexivity|].
  pose proof (Bs (str "y") ltac:(simpl; tauto)) as BY. cbn [str list_ascii_of_string] in *. rewrite EX, EY in *. holding Hc.
  repeat match goal with G : inst s _ = [_] |- _ => cbn [inst flat_map] in G; rewrite ?EX, ?EY in G; cbn [app] in G; injection G as <- end.
  match goal with G : ck _ = Ok true |- _ => rename G into G0 end. match goal with G : Even Y |- _ => destruct G as [BY1 BY2] end.
  apply is_even in G0; auto; try (cbn [o_addr]; lia). 2:{ apply (BY2 [] Y eq_refl). } destruct G0 as (y & ty & -> & G0).
  injection B1 as <-. injection B2 as <-. intros env H. rewrite def_op in H |- * by discriminate. destruct H as [H1 H2].
  apply Forall_cons_iff in H1. destruct H1 as [H1 H3]. apply Forall_cons_iff in H3. destruct H3 as [H3 _]. rewrite def_op in H1 by discriminate. destruct H1 as [H1 _].
  apply Forall_cons_iff in H1. destruct H1 as [H1 _]. destruct (Fm y H3 G0) as [k Ek].
  rewrite !val_op by discriminate. cbn [map opval on2] in *. rewrite val_op in * by discriminate. cbn [map opval on1 on2 opdom] in *. cbn [S_Simplify.value] in *. rewrite Ek in *.
  rewrite <- mult_IZR in *. set (x := value X env) in *.
  assert (Ev : x <> 0 -> powerRZ (- x) (2 * k) = powerRZ x (2 * k)).
  { intros N. replace (2 * k)%Z with (k + k)%Z by lia. rewrite !powerRZ_add by lra. rewrite <- !powerRZ_mult_all by lra. f_equal. ring. }
  destruct (Req_dec x 0) as [Z0|Z0].
  - rewrite Z0 in *. rewrite Ropp_0 in *. split; [split; [repeat constructor; auto|exact H2]|reflexivity].
  - split; [split; [repeat constructor; auto|apply ok_Z; auto]|]. rewrite !power_Z by lra. symmetry. apply Ev; auto.
Qed.
End Rules.
