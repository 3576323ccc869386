(** Theorems about simplification: C48, C49, C62, C63, C64. *)
From Coq Require Import Reals Lra.
From Coquelicot Require Import Coquelicot.
From Flocq Require Import Core.
From Coq Require Import List Ascii String NArith ZArith Bool Lia Arith.
From Coq.Floats Require Import SpecFloat.
From Verif Require Import M_Base M_Tree M_Context M_Parser M_StringUtil M_TreeUtil M_Match M_RuleParsing M_ArithCtx L_ArithCtx M_Strtod M_Double M_Eval M_Simplify M_ShippedRules S_Util L_StringUtil S_Tree L_Tree S_Match L_MatchSub P_Match S_Eval L_Float S_Simplify L_Simplify L_SimpPattern L_SimpRules L_SimpSound L_SimpDeriv L_SimpCheck L_SimpSteps L_NegConst L_SimpLoop.
Import ListNotations.
Open Scope string_scope.
Open Scope list_scope.
Open Scope nat_scope.

(** The expression with this text *)
Definition expr (s : string) : node := match parse_easy strtod the_arith_ctx (str s) with Ok (Some t) => t | _ => NConst S754_nan 0 end.
(** Mathematics in which every other operator is defined nowhere *)
Definition nothing_else : others := mkOthers (fun _ _ => 0%R) (fun _ _ => False).
Definition no_libm : libm :=
  let u := fun _ : double => S754_nan in let b := fun _ _ : double => S754_nan in mkLibm b b u u u u u u u u u u u u u u u u u.
Definition w0 : world := mkWorld [] [].

(** ** C48 *)
(** The operators that have a fixed meaning in [opval] and [opdom], with their names; those of the constraints that
    look at trees *)
Definition numbered : list (string * placement * nat) :=
  [ ("$", PPrefix, 0); ("'", PPostfix, 2); ("deriv", PFunction, 3); ("+", PInfix, 4); ("-", PInfix, 5); ("*", PInfix, 6);
    ("/", PInfix, 7); ("^", PInfix, 8); ("mod", PInfix, 10); ("+", PPrefix, 11); ("-", PPrefix, 12); ("%", PPostfix, 14);
    ("exp", PFunction, 15); ("root", PFunction, 16); ("sqrt", PFunction, 17); ("log", PFunction, 18); ("ln", PFunction, 19);
    ("sin", PFunction, 22); ("cos", PFunction, 23); ("tan", PFunction, 24); ("asin", PFunction, 25); ("acos", PFunction, 26);
    ("atan", PFunction, 27); ("max", PFunction, 34); ("min", PFunction, 35); ("sum", PFunction, 43); ("prod", PFunction, 44);
    ("avg", PFunction, 45); ("e", PFunction, 53); ("type", PFunction, 58); ("equal", PFunction, 59); ("count", PFunction, 73) ].
Theorem C48_numbers : Forall (fun '(name, place, k) =>
  exists op, ctx_lookup_op the_prop_ctx (str name) place = Ok (Some op) /\ o_id op = k /\ o_addr op = k /\
    (k < 58 -> ctx_lookup_op the_arith_ctx (str name) place = Ok (Some op))
    /\ (58 <= k -> ctx_lookup_op the_arith_ctx (str name) place = Ok None)) numbered.
Proof.
  unfold numbered. repeat (constructor; [eexists; split; [vm_compute; reflexivity|]; split; [reflexivity|]; split; [reflexivity|];
    split; intros H; first [exfalso; lia|vm_compute; reflexivity]|]). constructor.
Qed.
Theorem C48_rules_count : List.length shipped_rules = 135 /\ map (@List.length cstr) shipped_sections = [14; 23; 13; 51; 10; 23; 1].
Proof. vm_compute. auto. Qed.

Lemma deriv_spec : forall s, names_deriv s = true <-> about_deriv s.
Proof.
  intros s. unfold names_deriv, about_deriv. destruct (strstr s (str "deriv")) eqn:E.
  - apply strstr_some in E. destruct E as [_ [E _]]. split; eauto.
  - apply strstr_none in E. split; [discriminate|]. intros (a & b & H). exfalso. exact (E a b H).
Qed.
Lemma left_out_spec : forall s, left_out s = true -> about_deriv s \/ In s wrong_rules \/ In s lossy_rules \/ s = opposite_rule \/ s = even_rule.
Proof.
  intros s. unfold left_out. destruct (names_deriv s) eqn:E; [intros _; left; apply deriv_spec; auto|]. cbn [orb].
  destruct (in_dec (list_eq_dec ascii_dec) s _) as [I|]; [|discriminate]. intros _. right. rewrite !in_app_iff in I. simpl in I.
  destruct I as [I|[I|[I|[I|[]]]]]; auto.
Qed.

(** Wherever the expression has a value before, it has the same after; for the rules that are not about
    derivatives *)
Theorem C48_keeps_partial : forall F L fuel w s t t', In s shipped_rules -> ~ about_deriv s ->
  ~ In s wrong_rules -> ~ In s lossy_rules -> s <> even_rule ->
  machine_sized t -> checkless t = true -> applies L fuel w s t t' -> keeps_value F t t'.
Proof.
  intros F L fuel w s t t' Hs Nd Nw Nl Ne MS B (r & Pa & A). apply keep_means. destruct (left_out s) eqn:E.
  - apply left_out_spec in E. destruct E as [E|[E|[E|[E|E]]]].
    + exfalso. exact (Nd E).
    + exfalso. exact (Nw E).
    + exfalso. exact (Nl E).
    + rewrite E in Pa. exact (c64 F L fuel w r t t' Pa B MS A).
    + exfalso. exact (Ne E).
  - exact (sound_rule_keep F _ s r t t' (sound_all F s Hs E) Pa MS A).
Qed.

(** The even powers: for expressions whose parts without variables are numbers *)
Definition folded (t : node) : Prop := forall q sub, subtree t q = Some sub -> var_names sub = [] -> exists v k, sub = NConst v k.
Theorem C48_even_partial : forall F L fuel w t t', fmod_exact L -> machine_sized t -> checkless t = true -> folded t ->
  applies L fuel w even_rule t t' -> keeps_value F t t'.
Proof.
  intros F L fuel w t t' Fm MS B Fo (r & Pa & A). apply keep_means. exact (c94 F L fuel w Fm r t t' Pa (conj B Fo) MS A).
Qed.

Lemma deriv_texts : filter names_deriv shipped_rules = firstn 17 (skipn 20 shipped_rules).
Proof. vm_compute. reflexivity. Qed.
Lemma keep_agre : forall F a b, keep F b a -> agre F a b.
Proof. intros F a b K env D D'. destruct (K env D') as [_ E]. auto. Qed.
Lemma keep_agre' : forall F a b, keep F a b -> agre F a b.
Proof. intros F a b K env D D'. destruct (K env D) as [_ E]. auto. Qed.
Lemma deriv_rules : forall (P : cstr -> Prop), P same_rule -> P zero_rule ->
  P (str "deriv(cx*y, y)      -> cx              WHERE type(cx) == CONST") ->
  P (str "deriv(cx * z^cy, z) -> cx*cy*z^(cy-1)  WHERE type(cx) == CONST ; type(cy) == CONST") ->
  P (str "deriv(ln(x), z)     -> deriv(x, z)*x^(-1)") ->
  (forall s, (forall F, back_rule F s) -> P s) -> forall s, In s shipped_rules -> about_deriv s -> P s.
Proof.
  intros P P1 P2 P3 P4 P5 Pb s Hs Ab. apply deriv_spec in Ab. assert (I : In s (filter names_deriv shipped_rules)) by exact (proj2 (filter_In names_deriv s shipped_rules) (conj Hs Ab)).
  rewrite deriv_texts in I.
  assert (E : firstn 17 (skipn 20 shipped_rules) = [ same_rule; zero_rule; str "deriv(cx*y, y)      -> cx              WHERE type(cx) == CONST";
    str "deriv(cx * z^cy, z) -> cx*cy*z^(cy-1)  WHERE type(cx) == CONST ; type(cy) == CONST"; str "deriv(-x, z)        -> -deriv(x, z)";
    str "deriv(x + y, z)     -> deriv(x, z) + deriv(y, z)"; str "deriv(x - y, z)     -> deriv(x, z) - deriv(y, z)";
    str "deriv(x*y, z)       -> deriv(x, z)*y + x*deriv(y, z)"; str "deriv(sin(x), z)    -> cos(x) * deriv(x, z)";
    str "deriv(cos(x), z)    -> -sin(x) * deriv(x, z)"; str "deriv(tan(x), z)    -> deriv(x, z) * cos(x)^-2";
    str "deriv(asin(x), z)   -> deriv(x, z) / sqrt(1 - x^2)"; str "deriv(acos(x), z)   -> -deriv(x, z) / sqrt(1 - x^2)";
    str "deriv(atan(x), z)   -> deriv(x, z) / (x^2 + 1)"; str "deriv(e^y, z)       -> deriv(y, z)*e^y";
    str "deriv(x^y, z)       -> (y * deriv(x, z) * x^-1 + deriv(y, z) * ln(x)) * x^y"; str "deriv(ln(x), z)     -> deriv(x, z)*x^(-1)" ]) by (vm_compute; reflexivity).
  rewrite E in I. clear E.
  assert (K : forall a l, In s (a :: l) -> s = a \/ In s l) by (intros a l [H|H]; [left; symmetry; exact H|right; exact H]).
  apply K in I. destruct I as [I|I]; [rewrite I; exact P1|].
  apply K in I. destruct I as [I|I]; [rewrite I; exact P2|].
  apply K in I. destruct I as [I|I]; [rewrite I; exact P3|].
  apply K in I. destruct I as [I|I]; [rewrite I; exact P4|].
  apply K in I. destruct I as [I|I]; [rewrite I; exact (Pb _ (fun F => b24 F))|].
  apply K in I. destruct I as [I|I]; [rewrite I; exact (Pb _ (fun F => b25 F))|].
  apply K in I. destruct I as [I|I]; [rewrite I; exact (Pb _ (fun F => b26 F))|].
  apply K in I. destruct I as [I|I]; [rewrite I; exact (Pb _ (fun F => b27 F))|].
  apply K in I. destruct I as [I|I]; [rewrite I; exact (Pb _ (fun F => b28 F))|].
  apply K in I. destruct I as [I|I]; [rewrite I; exact (Pb _ (fun F => b29 F))|].
  apply K in I. destruct I as [I|I]; [rewrite I; exact (Pb _ (fun F => b30 F))|].
  apply K in I. destruct I as [I|I]; [rewrite I; exact (Pb _ (fun F => b31 F))|].
  apply K in I. destruct I as [I|I]; [rewrite I; exact (Pb _ (fun F => b32 F))|].
  apply K in I. destruct I as [I|I]; [rewrite I; exact (Pb _ (fun F => b33 F))|].
  apply K in I. destruct I as [I|I]; [rewrite I; exact (Pb _ (fun F => b34 F))|].
  apply K in I. destruct I as [I|I]; [rewrite I; exact (Pb _ (fun F => b35 F))|].
  apply K in I. destruct I as [I|I]; [rewrite I; exact P5|].
  destruct I.
Qed.

(** Wherever both have a value, it is the same. *)
Definition C48_claim (rules : list cstr) : Prop := forall F L fuel w s t t', In s rules ->
  machine_sized t -> checkless t = true -> applies L fuel w s t t' -> agrees F t t'.
Theorem C48_partial : C48_claim (filter (fun s => if in_dec name_dec s (even_rule :: zero_rule :: wrong_rules) then false else true) shipped_rules).
Proof.
  intros F L fuel w s t t' Hs MS B Ap. destruct (proj1 (filter_In _ s shipped_rules) Hs) as [Hs' Nn]. clear Hs. rename Hs' into Hs. destruct (in_dec name_dec s _) as [|Ni]; [discriminate Nn|clear Nn].
  apply agre_means. destruct (names_deriv s) eqn:Ed.
  - apply deriv_spec in Ed. revert Ap Ni. refine (deriv_rules (fun s => applies L fuel w s t t' -> ~ In s (even_rule :: zero_rule :: wrong_rules) -> agre F t t') _ _ _ _ _ _ s Hs Ed); clear s Hs Ed.
    + intros (r & Pa & A) _. exact (c20 F L fuel w r t t' Pa B MS A).
    + intros _ N. exfalso. exact (N (or_intror (or_introl eq_refl))).
    + intros (r & Pa & A) _. exact (c22 F L fuel w r t t' Pa B MS A).
    + intros (r & Pa & A) _. exact (c23 F L fuel w r t t' Pa B MS A).
    + intros (r & Pa & A) _. exact (c36 F L fuel w r t t' Pa B MS A).
    + intros s Bs (r & Pa & A) _. exact (keep_agre F t t' (back_rule_keep F _ s r t t' (Bs F) Pa MS A)).
  - assert (Nd : ~ about_deriv s) by (intros X; apply deriv_spec in X; congruence).
    destruct (in_dec name_dec s lossy_rules) as [Il|Nl].
    + destruct Ap as (r & Pa & A). exact (agreeing_rule_agree F _ s r t t' (lossy_all F s Il) Pa MS A).
    + apply keep_agre'. apply keep_means. refine (C48_keeps_partial F L fuel w s t t' Hs Nd _ Nl _ MS B Ap).
      * intros X. exact (Ni (or_intror (or_intror X))).
      * intros X. exact (Ni (or_introl (eq_sym X))).
Qed.

(** The rules that are left out of it are indeed wrong. *)
Lemma differ : forall F env t t', defined F t env -> defined F t' env -> value F t env <> value F t' env -> ~ agrees F t t'.
Proof. intros F env t t' D D' N A. apply N. apply (A env); split; auto. Qed.
Definition at3 (x a b : R) : cstr -> R := fun v => if name_dec v (str "x") then x else if name_dec v (str "a") then a else b.
Lemma power_1 : forall y, power 1 y = 1%R.
Proof. intros y. unfold power. destruct (Rlt_dec 0 1); [|lra]. unfold Rpower. rewrite ln_1, Rmult_0_r. apply exp_0. Qed.
Lemma pm12 : power (-1) 2 = 1%R.
Proof. unfold power. destruct (Rlt_dec 0 (-1)); [lra|]. destruct (Rlt_dec (-1) 0); [|lra]. replace (Zfloor 2) with 2%Z by (symmetry; apply Zfloor_imp; simpl; lra). simpl. lra. Qed.
Lemma pm11 : power (-1) 1 = (-1)%R.
Proof. unfold power. destruct (Rlt_dec 0 (-1)); [lra|]. destruct (Rlt_dec (-1) 0); [|lra]. replace (Zfloor 1) with 1%Z by (symmetry; apply Zfloor_imp; simpl; lra). simpl. lra. Qed.
Lemma v3 : val (S754_finite false 6755399441055744 (-51)) = 3%R. Proof. unfold val, bpow. simpl. lra. Qed.
Lemma v4 : val (S754_finite false 4503599627370496 (-50)) = 4%R. Proof. unfold val, bpow. simpl. lra. Qed.
Lemma v16 : val (S754_finite false 4503599627370496 (-48)) = 16%R. Proof. unfold val, bpow. simpl. lra. Qed.
Lemma v5 : val (S754_finite false 5629499534213120 (-50)) = 5%R. Proof. unfold val, bpow. simpl. lra. Qed.
Ltac compute_rule L fuel w s t :=
  let r := eval vm_compute in (match parse_rule strtod the_prop_ctx s with Ok (Some r) => r | _ => mkRule (mkPat (NConst S754_nan 0) []) (NConst S754_nan 0) end) in
  let u := eval vm_compute in (match apply_rule (propositional_checker L fuel the_prop_ctx w) t r with Ok (Some u) => u | _ => NConst S754_nan 0 end) in
  exists t, u; refine (conj _ (conj _ (conj _ _))); [vm_compute; repeat split; reflexivity|vm_compute; reflexivity|exists r; refine (conj _ _); [vm_compute; reflexivity|vm_compute; reflexivity]|].
Theorem C48_wrong : forall F L fuel w, Forall (fun s => In s shipped_rules /\
  exists t t', machine_sized t /\ checkless t = true /\ applies L fuel w s t t' /\ ~ agrees F t t') wrong_rules.
Proof.
  intros F L fuel w. unfold wrong_rules. constructor; [|constructor; [|constructor; [|constructor]]].
  - refine (conj _ _). { apply (nth_error_In _ 79). vm_compute. reflexivity. }
    let t := eval vm_compute in (expr "(x^2)^0.5") in compute_rule L fuel w (nth 0 wrong_rules []) t.
    apply (differ F (at3 (-1) 0 0)); cbn -[val at3]; rewrite ?v2, ?v05; unfold at3; cbn.
    + repeat split; [right; right; split; [lra|exists 2%Z; lra]|left; rewrite pm12; lra].
    + repeat split. right; right. split; [lra|exists 1%Z; lra].
    + rewrite pm12, power_1. replace (2 * (/ 2 * 1))%R with 1%R by lra. rewrite pm11. lra.
  - refine (conj _ _). { apply (nth_error_In _ 87). vm_compute. reflexivity. }
    let t := eval vm_compute in (expr "prod(a, sum(b, x^2), x^3)") in compute_rule L fuel w (nth 1 wrong_rules []) t.
    apply (differ F (at3 1 2 0)); cbn -[val at3]; rewrite ?v2, ?v3; unfold at3; cbn; rewrite ?power_1.
    + repeat split; left; lra.
    + repeat split; left; lra.
    + lra.
  - refine (conj _ _). { apply (nth_error_In _ 117). vm_compute. reflexivity. }
    let t := eval vm_compute in (expr "-(x+b)") in compute_rule L fuel w (nth 2 wrong_rules []) t.
    apply (differ F (at3 1 0 0)); cbn -[val at3]; unfold at3; cbn.
    + repeat split.
    + repeat split.
    + lra.
Qed.
Theorem C48_refuted : ~ C48_claim shipped_rules.
Proof.
  intros C. pose proof (C48_wrong nothing_else no_libm 0 w0) as W. apply Forall_inv in W.
  destruct W as (I & t & t' & MS & B & A & N). exact (N (C nothing_else no_libm 0 w0 _ t t' I MS B A)).
Qed.

(** So does the whole simplification, whatever libm computes. *)
Definition the_simp : option simp := loaded.
Definition simplifies_to (L : libm) (w : world) (t t' : node) : Prop :=
  exists fuel w', simplify L fuel the_arith_ctx the_prop_ctx the_simp w t = Done (Ok (w', (t', None))).
Ltac compute_simp L w s :=
  let t := eval vm_compute in (expr s) in
  let u := eval vm_compute in (match simplify L 100 the_arith_ctx the_prop_ctx the_simp w t with Done (Ok (_, (u, _))) => u | _ => NConst S754_nan 0 end) in
  exists u; refine (conj _ _); [exists 100, w; vm_compute; reflexivity|]; let E := fresh "E" in
  assert (E : expr s = t) by (vm_compute; reflexivity); rewrite E; clear E.
Theorem C48_simplify_wrong : forall F L w, Forall (fun s => exists t', simplifies_to L w (expr s) t' /\ ~ agrees F (expr s) t')
  ["(x^2)^0.5"; "a*(b+x^2)*x^3"; "(-4)*(4-x)"].
Proof.
  intros F L w. constructor; [|constructor; [|constructor; [|constructor]]].
  - compute_simp L w "(x^2)^0.5". apply (differ F (at3 (-1) 0 0)); cbn -[val at3]; rewrite ?v2, ?v05; unfold at3; cbn.
    + repeat split; [right; right; split; [lra|exists 2%Z; lra]|left; rewrite pm12; lra].
    + exact Logic.I.
    + rewrite pm12, power_1. lra.
  - compute_simp L w "a*(b+x^2)*x^3". apply (differ F (at3 1 2 0)); cbn -[val at3]; rewrite ?v2, ?v3, ?v5; unfold at3; cbn; rewrite ?power_1.
    + repeat split; left; lra.
    + repeat split; left; lra.
    + lra.
  - compute_simp L w "(-4)*(4-x)". apply (differ F (at3 1 2 0)); cbn -[val at3]; rewrite ?v4, ?v16; unfold at3; cbn.
    + repeat split.
    + repeat split.
    + lra.
Qed.
Theorem C48_simplify_refuted : ~ forall F L w t t', simplifies_to L w t t' -> agrees F t t'.
Proof.
  intros C. pose proof (Forall_inv (C48_simplify_wrong nothing_else no_libm w0)) as (t' & S & N). exact (N (C _ _ _ _ _ S)).
Qed.

(** Any number of steps with rules that keep values *)
Inductive rewritten (L : libm) (fuel : nat) (w : world) (rules : list cstr) : node -> node -> Prop :=
| rw_none : forall t, rewritten L fuel w rules t t
| rw_step : forall s t t1 t', In s rules -> machine_sized t -> applies L fuel w s t t1 -> rewritten L fuel w rules t1 t' -> rewritten L fuel w rules t t'.
Definition keeping (s : cstr) : Prop := In s shipped_rules /\ ~ about_deriv s /\ ~ In s wrong_rules /\ ~ In s lossy_rules /\ s <> even_rule.
Lemma keeps_trans : forall F a b c, keeps_value F a b -> keeps_value F b c -> keeps_value F a c.
Proof. intros F a b c A B env v M. auto. Qed.
Theorem C48_steps : forall F L fuel w rules t t', Forall keeping rules -> checkless t = true -> rewritten L fuel w rules t t' -> keeps_value F t t'.
Proof.
  intros F L fuel w rules t t' K B R. revert B. induction R as [t|s t t1 t' Hs MS A R IH]; intros B; [intros env v M; exact M|].
  rewrite Forall_forall in K. destruct (K s Hs) as (I & Nd & Nw & Nl & Ne). apply (keeps_trans F t t1 t').
  - exact (C48_keeps_partial F L fuel w s t t1 I Nd Nw Nl Ne MS B A).
  - apply IH. destruct A as (r & Pa & A). exact (step_checkless _ s r t t1 I Pa MS B A).
Qed.
(** What the program does with a section of the file: apply_ruleset. The sections 0, 2, 4 and 6 keep values. *)
Theorem C48_sections : forall F L fuel w k texts rs cap t t' n fuel', In k [0; 2; 4; 6] -> nth_error shipped_sections k = Some texts ->
  Forall2 (fun s r => parse_rule strtod the_prop_ctx s = Ok (Some r)) texts rs ->
  let ck := propositional_checker L fuel the_prop_ctx w in
  checkless t = true -> (forall j u, rounds ck rs j t u -> machine_sized u) ->
  apply_ruleset fuel' ck rs cap t = Ok (Some (t', n)) -> keeps_value F t t'.
Proof.
  intros F L fuel w k texts rs cap t t' n fuel' Hk Ht Hr ck B MS A. destruct (C35_apply_ruleset _ _ _ _ _ _ _ A) as [R _]. clear A.
  assert (K : Forall keeping texts).
  { apply Forall_forall. intros s Is.
    assert (I : In s shipped_rules) by exact (proj2 (in_concat shipped_sections s) (ex_intro _ texts (conj (nth_error_In _ _ Ht) Is))).
    assert (X : forallb (fun k => forallb (fun s => negb (left_out s) || if name_dec s opposite_rule then true else false) (nth k shipped_sections [])) [0; 2; 4; 6] = true) by (vm_compute; reflexivity).
    rewrite forallb_forall in X. specialize (X k Hk). rewrite (nth_error_nth shipped_sections k [] Ht) in X. rewrite forallb_forall in X. specialize (X s Is).
    assert (Y : forallb left_out (wrong_rules ++ lossy_rules ++ [even_rule]) = true) by (vm_compute; reflexivity).
    rewrite forallb_forall in Y.
    assert (Z : names_deriv opposite_rule = false) by (vm_compute; reflexivity).
    assert (Z1 : ~ In opposite_rule (wrong_rules ++ lossy_rules ++ [even_rule])) .
    { assert (Z2 : (if in_dec name_dec opposite_rule (wrong_rules ++ lossy_rules ++ [even_rule]) then true else false) = false) by (vm_compute; reflexivity).
      destruct (in_dec name_dec opposite_rule (wrong_rules ++ lossy_rules ++ [even_rule])) as [|N]; [discriminate Z2|exact N]. }
    assert (NI : ~ In s (wrong_rules ++ lossy_rules ++ [even_rule])).
    { intros Q. destruct (name_dec s opposite_rule) as [->|No]; [exact (Z1 Q)|]. rewrite (Y s Q) in X. discriminate X. }
    split; [exact I|]. split; [|split; [|split]].
    - intros Q. apply deriv_spec in Q. destruct (name_dec s opposite_rule) as [->|No]; [congruence|]. unfold left_out in X. rewrite Q in X. discriminate X.
    - intros Q. apply NI, in_or_app. left. exact Q.
    - intros Q. apply NI, in_or_app. right. apply in_or_app. left. exact Q.
    - intros Q. apply NI, in_or_app. right. apply in_or_app. right. left. symmetry. exact Q. }
  assert (G : rewritten L fuel w texts t t'); [|exact (C48_steps F L fuel w texts t t' K B G)].
  clear K B Ht Hk. revert MS. induction R as [t|j t t1 t2 Fa R IH]; intros MS; [apply rw_none|].
  pose proof Fa as Fa0. destruct Fa as (rs1 & r & rs2 & -> & _ & Ap). apply Forall2_app_inv_r in Hr. destruct Hr as (l1 & l2 & _ & Hr & ->).
  inversion Hr as [|s r0 l2' rs2' Pa _]; subst. apply (rw_step L fuel w _ s t t1 t2).
  - apply in_or_app. right. left. reflexivity.
  - apply (MS 0). constructor.
  - exists r. split; [exact Pa|exact Ap].
  - apply IH. intros j' u Ru. apply (MS (S j')). econstructor; eauto.
Qed.

(** ** C62 *)
(** The expression after the step has a value only where the derivative exists, and it is that value; for the rules
    that take apart sums, products, powers and functions *)
Definition direct_rules : list cstr :=
  [ same_rule; zero_rule; str "deriv(cx*y, y)      -> cx              WHERE type(cx) == CONST";
    str "deriv(cx * z^cy, z) -> cx*cy*z^(cy-1)  WHERE type(cx) == CONST ; type(cy) == CONST";
    str "deriv(ln(x), z)     -> deriv(x, z)*x^(-1)" ].
Theorem C62_derivative : forall F L fuel w s t t', In s shipped_rules -> about_deriv s -> ~ In s direct_rules -> machine_sized t ->
  applies L fuel w s t t' -> keeps_value F t' t.
Proof.
  intros F L fuel w s t t' Hs Ab Nd MS Ap. apply keep_means. revert Ap Nd.
  refine (deriv_rules (fun s => applies L fuel w s t t' -> ~ In s direct_rules -> keep F t' t) _ _ _ _ _ _ s Hs Ab); clear s Hs Ab.
  1-5: intros _ N; exfalso; apply N; unfold direct_rules.
  left; reflexivity. right; left; reflexivity. right; right; left; reflexivity. right; right; right; left; reflexivity. right; right; right; right; left; reflexivity.
  intros s Bs (r & Pa & A) _. exact (back_rule_keep F _ s r t t' (Bs F) Pa MS A).
Qed.
(** The variables of what the parser returns are not numbered yet. *)
Definition unnumbered (t : node) : Prop := forall q x i k, subtree t q = Some (NVar x i k) -> i = 0.
(** The zero rule where the rule before it, deriv(x, x) -> 1, is not applicable *)
Theorem C62_zero : forall F L fuel w t t' r, parse_rule strtod the_prop_ctx same_rule = Ok (Some r) ->
  apply_rule (propositional_checker L fuel the_prop_ctx w) t r = Ok None -> machine_sized t -> checkless t = true -> unnumbered t ->
  applies L fuel w zero_rule t t' -> agrees F t t'.
Proof.
  intros F L fuel w t t' r Pr Nr MS B U (r' & Pa & A). apply agre_means. exact (c21 F L fuel w r r' t t' Pr Nr Pa B MS U A).
Qed.
Lemma f2_nth {A B} (P : A -> B -> Prop) : forall l m, Forall2 P l m -> forall i a, nth_error l i = Some a -> exists b, nth_error m i = Some b /\ P a b.
Proof. intros l m H. induction H as [|x y l m Pxy H IH]; intros [|i] a E; simpl in E; try discriminate E; [injection E as <-; exists y; auto|exact (IH i a E)]. Qed.
(** One round with the section about derivatives, as the program does it: the first rule that is applicable *)
Theorem C62_round : forall F L fuel w texts rs t t', nth_error shipped_sections 1 = Some texts ->
  Forall2 (fun s r => parse_rule strtod the_prop_ctx s = Ok (Some r)) texts rs -> machine_sized t -> checkless t = true -> unnumbered t ->
  first_applies (propositional_checker L fuel the_prop_ctx w) rs t t' -> agrees F t t'.
Proof.
  intros F L fuel w texts rs t t' Ht Hr MS B U (rs1 & r & rs2 & -> & Nr & A).
  apply Forall2_app_inv_r in Hr. destruct Hr as (l1 & l2 & H1 & H2 & ->). inversion H2 as [|s r0 l2' rs2' Pa _]; subst.
  pose proof (nth_error_nth shipped_sections 1 [] Ht) as ET.
  assert (I : In s (nth 1 shipped_sections [])). { rewrite ET. apply in_or_app. right. left. reflexivity. }
  assert (Is : In s shipped_rules). { apply (proj2 (in_concat shipped_sections s)). exists (l1 ++ s :: l2'). refine (conj (nth_error_In _ _ Ht) _). apply in_or_app. right. left. reflexivity. }
  destruct (name_dec s zero_rule) as [->|Nz].
  - assert (X : forallb (fun i => match nth_error (nth 1 shipped_sections []) i with Some s => if name_dec s zero_rule then 7 <=? i else true | None => true end) (List.seq 0 23) = true) by (vm_compute; reflexivity).
    assert (X2 : nth_error (nth 1 shipped_sections []) 6 = Some same_rule) by (vm_compute; reflexivity).
    assert (X3 : List.length (nth 1 shipped_sections []) = 23) by (vm_compute; reflexivity).
    rewrite ET in X, X2, X3. rewrite forallb_forall in X.
    assert (Le : 7 <= List.length l1).
    { specialize (X (List.length l1)). rewrite app_length in X3. simpl in X3. rewrite in_seq in X. specialize (X ltac:(lia)).
      rewrite nth_error_app2, Nat.sub_diag in X by lia. cbn [nth_error] in X. destruct (name_dec zero_rule zero_rule); [apply Nat.leb_le; exact X|exfalso; apply n; reflexivity]. }
    rewrite nth_error_app1 in X2 by lia.
    destruct (f2_nth _ _ _ H1 _ _ X2) as (r1 & E1 & P1).
    refine (C62_zero F L fuel w t t' r1 P1 (Nr r1 (nth_error_In _ _ E1)) MS B U _). exists r. split; [exact Pa|exact A].
  - refine (C48_partial F L fuel w s t t' _ MS B (ex_intro _ r (conj Pa A))). apply filter_In. refine (conj Is _).
    destruct (in_dec name_dec s (even_rule :: zero_rule :: wrong_rules)) as [J|]; [|reflexivity]. exfalso.
    assert (X : forallb (fun s => if in_dec name_dec s (even_rule :: wrong_rules) then false else true) (nth 1 shipped_sections []) = true) by (vm_compute; reflexivity).
    rewrite forallb_forall in X. specialize (X s I). destruct J as [J|[J|J]].
    + destruct (in_dec name_dec s (even_rule :: wrong_rules)) as [|N]; [discriminate X|apply N; left; exact J].
    + exact (Nz (eq_sym J)).
    + destruct (in_dec name_dec s (even_rule :: wrong_rules)) as [|N]; [discriminate X|apply N; right; exact J].
Qed.

(** ** C49 *)
Theorem C49_no_negative : forall minus t q v k, subtree (replace_negative_consts minus t) q = Some (NConst v k) -> dltb v d0 = false.
Proof.
  intros minus t. induction t as [v t|x i t|op cs t IH] using node_ind'; intros q w k E; cbn [replace_negative_consts] in E.
  - destruct (dltb v d0) eqn:D.
    + destruct q as [|i q]; [discriminate E|]. destruct i as [|i]; [|destruct i; discriminate E]. destruct q as [|j q]; [|destruct j; discriminate E].
      simpl in E. injection E as <- _. destruct v as [[]|[]| |[] m e]; try discriminate D; reflexivity.
    + destruct q as [|i q]; [|discriminate E]. injection E as <- _. exact D.
  - destruct q; discriminate E.
  - destruct q as [|i q]; [discriminate E|]. cbn [subtree] in E. rewrite nth_error_map in E. destruct (nth_error cs i) as [c|] eqn:Ec; [|discriminate E].
    rewrite Forall_forall in IH. exact (IH c (nth_error_In _ _ Ec) q w k E).
Qed.
(** The number it stands for is the same, for the minus sign of the calculator. *)
Theorem C49_value : forall F minus t env v, ctx_lookup_op the_arith_ctx (str "-") PPrefix = Ok (Some minus) ->
  (means F env (replace_negative_consts minus t) v <-> means F env t v).
Proof.
  intros F minus t env v Em. assert (Id : o_id minus = 12). { revert Em. vm_compute. intros H. injection H as <-. reflexivity. }
  destruct (rnc_sem F minus Id t env) as [A B]. unfold means. rewrite A, B. reflexivity.
Qed.
(** The calculator computes the same double, or reports the same error, and leaves history and random numbers alike. *)
Theorem C49_evaluation : forall L fuel minus t e w w' r, ctx_lookup_op the_arith_ctx (str "-") PPrefix = Ok (Some minus) ->
  tree_reduce (arith_listener L fuel) (Done (Ok w)) (assigned e t) = (Done (Ok w'), r) ->
  exists r', tree_reduce (arith_listener L fuel) (Done (Ok w)) (assigned e (replace_negative_consts minus t)) = (Done (Ok w'), r') /\ same_result r r'.
Proof.
  intros L fuel minus t e w w' r Em E. assert (Id : o_id minus = 12). { revert Em. vm_compute. intros H. injection H as <-. reflexivity. }
  pose proof (same_reduce L fuel minus e Id t (Done (Ok w))) as S. rewrite E in S. destruct S as [S1 S2]. simpl in S1, S2.
  destruct (tree_reduce (arith_listener L fuel) (Done (Ok w)) (assigned e (replace_negative_consts minus t))) as [s r']. simpl in S1, S2. subst s.
  exists r'. split; [reflexivity|]. exact (S2 Logic.I).
Qed.
(** sum(-3, 2*x): the -3 is one constant after folding *)
Example C49_case : match tree_reduce_constant_subtrees (arith_listener no_libm 0) (Done (Ok w0)) (expr "sum(2-5, 2*x)") with
  | (_, (NOp op (NConst v k :: rest) i, None)) => dltb v d0 = true /\
      (match minus_op the_arith_ctx with Ok m => replace_negative_consts m (NOp op (NConst v k :: rest) i) = NOp op (NOp m [NConst (of_Z 3) k] k :: rest) i | _ => False end)
  | _ => False end.
Proof. vm_compute. auto. Qed.

(** ** C63 *)
Definition parses_to (s : cstr) (r : rule) : Prop := parse_rule strtod the_prop_ctx s = Ok (Some r).
Lemma map_parses : forall texts rs, map (parse_rule strtod the_prop_ctx) texts = map (fun r => Ok (Some r)) rs -> Forall2 parses_to texts rs.
Proof. induction texts as [|s texts IH]; intros [|r rs] H; simpl in H; try discriminate H; constructor; [unfold parses_to; congruence|apply IH; congruence]. Qed.
Lemma maps_parse : forall secs sets, map (map (parse_rule strtod the_prop_ctx)) secs = map (map (fun r => Ok (Some r))) sets -> Forall2 (Forall2 parses_to) secs sets.
Proof. induction secs as [|s secs IH]; intros [|r sets] H; simpl in H; try discriminate H; constructor; [apply map_parses; congruence|apply IH; congruence]. Qed.
Theorem C63_loads : exists s, init_simplification strtod the_arith_ctx the_prop_ctx (Some (str shipped_ruleset)) = Ok (ILoaded s 135) /\
  the_simp = Some s /\ Forall2 (Forall2 parses_to) shipped_sections (s_rulesets s).
Proof.
  exists the_s. refine (conj _ (conj _ _)); [vm_compute; reflexivity|exact the_s_loaded|]. apply maps_parse. vm_compute. reflexivity.
Qed.
(** No list variable stands next to another one. *)
Fixpoint apart (cs : list node) : bool :=
  match cs with
  | a :: (b :: _) as rest => negb (match a, b with NVar x _ _, NVar y _ _ => is_list x && is_list y | _, _ => false end) && apart rest
  | _ => true
  end.
Fixpoint all_apart (n : node) : bool := match n with NOp _ cs _ => apart cs && forallb all_apart cs | _ => true end.
Lemma is_list_spec' : forall x, list_name x -> is_list x = true.
Proof. intros x [y ->]. reflexivity. Qed.
Lemma apart_no_reuse : forall pre cs, apart cs = true -> no_reuse pre cs.
Proof.
  intros pre cs. induction cs as [|a [|b cs] IH]; intros A; [exact Logic.I|exact Logic.I|]. cbn [apart] in A. apply andb_prop in A. destruct A as [A1 A2].
  split; [|apply IH; exact A2]. destruct a as [| x i t |]; try exact Logic.I. intros Lx _ Lb. destruct b as [| y j u |]; try contradiction. simpl in Lb.
  rewrite (is_list_spec' x Lx), (is_list_spec' y Lb) in A1. discriminate A1.
Qed.
Lemma apart_no_overrun : forall p pre, all_apart p = true -> no_overrun pre p.
Proof.
  induction p as [v t|x i t|op cs t IH] using node_ind'; intros pre A; try exact Logic.I. cbn [all_apart] in A. apply andb_prop in A. destruct A as [A1 A2].
  split; [apply apart_no_reuse; exact A1|]. clear A1. revert pre. induction IH as [|c cs Hc IH IH2]; intros pre; [exact Logic.I|].
  cbn [forallb] in A2. apply andb_prop in A2. destruct A2 as [A2 A3]. split; [apply Hc; exact A2|apply IH2; exact A3].
Qed.
Definition unconditional (s : cstr) : Prop := forall a b, s <> a ++ str "WHERE" ++ b.
(** A rule without constraints is applied, or found not to apply, without going wrong. *)
Theorem C63_defined : forall ck s r t, In s shipped_rules -> unconditional s -> parse_rule strtod the_prop_ctx s = Ok (Some r) -> machine_sized t ->
  exists res, apply_rule ck t r = Ok res.
Proof.
  intros ck s r t Hs Un Pa MS. destruct (rule_parts_spec _ _ _ _ Pa) as (p & cs & a & pat & E & HP & HR).
  assert (X : forallb (fun s => match rule_parts strtod the_prop_ctx s with
     | Ok (Some (p, cs, a)) => all_apart p && (match cs with [] => true | _ => match strstr s (str "WHERE") with Some _ => true | None => false end end)
                               && negb (match a with NVar x _ _ => is_list x | _ => false end)
     | _ => false end) shipped_rules = true) by (vm_compute; reflexivity).
  rewrite forallb_forall in X. specialize (X s Hs). rewrite E in X. apply andb_prop in X. destruct X as [X X3]. apply andb_prop in X. destruct X as [X1 X2].
  assert (cs = []) as ->. { destruct cs as [|c cs]; [reflexivity|]. destruct (strstr s (str "WHERE")) as [n|] eqn:St; [|discriminate X2]. exfalso.
    apply strstr_some in St. destruct St as (_ & St & _). exact (Un _ _ St). }
  eapply C34_apply_rule_defined; [exact HP|exact HR|exact MS|intros c x []|apply apart_no_overrun; exact X1|intros s0 c _ []|].
  intros Lv. destruct a as [v u| y j u |o l u]; [exact Lv| |exact Lv]. cbn [list_var] in Lv. rewrite (is_list_spec' y Lv) in X3. discriminate X3.
Qed.

(** ** C64 *)
Theorem C64_never_ends : forall L fuel w, simplify L fuel the_arith_ctx the_prop_ctx the_simp w (expr "(-3)*4/0") = Forever.
Proof.
  intros L fuel w. assert (E : expr "(-3)*4/0" = u0) by (vm_compute; reflexivity). rewrite E. change the_simp with loaded. rewrite the_s_loaded. apply no_end.
Qed.
Theorem C64_refuted : ~ forall L w t, exists fuel, simplify L fuel the_arith_ctx the_prop_ctx the_simp w t <> Forever.
Proof. intros H. destruct (H no_libm w0 (expr "(-3)*4/0")) as [fuel N]. exact (N (C64_never_ends no_libm fuel w0)). Qed.

(** ** Cases *)
Definition rule_or (o : res (option rule)) : rule := match o with Ok (Some r) => r | _ => mkRule (mkPat dummy []) dummy end.
Definition tree_or (o : res (option node)) : node := match o with Ok (Some u) => u | _ => dummy end.
Ltac pick L fuel w s t k :=
  let r := eval vm_compute in (rule_or (parse_rule strtod the_prop_ctx s)) in
  let u := eval vm_compute in (tree_or (apply_rule (propositional_checker L fuel the_prop_ctx w) t r)) in
  k r u.

(** sum(x, 2, -x) -> sum(2): the rule with equal(y, -x) *)
Example C48_case : keeping opposite_rule /\ machine_sized (expr "sum(x, 2, -x)") /\ checkless (expr "sum(x, 2, -x)") = true /\
  exists u, applies no_libm 0 w0 opposite_rule (expr "sum(x, 2, -x)") u /\ tree_equals u (expr "sum(2)") = true.
Proof.
  refine (conj _ (conj _ (conj _ _))); [|vm_compute; repeat split; reflexivity|vm_compute; reflexivity|].
  - unfold keeping. split; [apply (nth_error_In _ 64); vm_compute; reflexivity|]. split; [intros H; apply deriv_spec in H; revert H; vm_compute; discriminate|].
    split; [|split].
    + intros H. assert (X : forallb (fun s => if name_dec opposite_rule s then false else true) wrong_rules = true) by (vm_compute; reflexivity).
      rewrite forallb_forall in X. specialize (X _ H). destruct (name_dec opposite_rule opposite_rule); [discriminate X|apply n; reflexivity].
    + intros H. assert (X : forallb (fun s => if name_dec opposite_rule s then false else true) lossy_rules = true) by (vm_compute; reflexivity).
      rewrite forallb_forall in X. specialize (X _ H). destruct (name_dec opposite_rule opposite_rule); [discriminate X|apply n; reflexivity].
    + vm_compute. intros H. discriminate H.
  - pick no_libm 0 w0 opposite_rule (expr "sum(x, 2, -x)") ltac:(fun r u => exists u; refine (conj _ _); [exists r; refine (conj _ _); vm_compute; reflexivity|vm_compute; reflexivity]).
Qed.
(** (-x)^2 -> x^2 with a remainder that is right for 2 *)
Definition some_libm : libm :=
  let u := fun _ : double => S754_nan in mkLibm (fun _ _ => S754_nan) (fun a _ => if deqb a (of_Z 2) then d0 else d1) u u u u u u u u u u u u u u u u u.
Example C48_even_case : fmod_exact some_libm /\ folded (expr "(-x)^2") /\ checkless (expr "(-x)^2") = true /\
  exists u, applies some_libm 0 w0 even_rule (expr "(-x)^2") u /\ tree_equals u (expr "x^2") = true.
Proof.
  refine (conj _ (conj _ (conj _ _))); [| |vm_compute; reflexivity|].
  - intros y Fy E. assert (X : deqb y (of_Z 2) = true). { cbn [m_fmod some_libm] in E. destruct (deqb y (of_Z 2)); [reflexivity|discriminate E]. }
    exists 1%Z. destruct (alike_const y (of_Z 2) (or_intror X)) as [V _]. rewrite V. change (of_Z 2) with (S754_finite false 4503599627370496 (-51)). rewrite v2. lra.
  - let t := eval vm_compute in (expr "(-x)^2") in assert (E : expr "(-x)^2" = t) by (vm_compute; reflexivity); rewrite E; clear E.
    intros q sub Sq. destruct q as [|[|[|i]] q]; cbn [subtree nth_error] in Sq.
    + injection Sq as <-. intros V. discriminate V.
    + destruct q as [|[|i] q]; cbn [subtree nth_error] in Sq.
      * injection Sq as <-. intros V. discriminate V.
      * destruct q as [|i q]; [injection Sq as <-; intros V; discriminate V|discriminate Sq].
      * destruct i; discriminate Sq.
    + destruct q as [|i q]; [injection Sq as <-; intros _; eauto|discriminate Sq].
    + destruct i; discriminate Sq.
  - pick some_libm 0 w0 even_rule (expr "(-x)^2") ltac:(fun r u => exists u; refine (conj _ _); [exists r; refine (conj _ _); vm_compute; reflexivity|vm_compute; reflexivity]).
Qed.
(** deriv(sin(x)*y, x) and deriv(y, x) in the section about derivatives *)
Example C62_case : exists s u u' u2, In s shipped_rules /\ about_deriv s /\ ~ In s direct_rules /\
  applies no_libm 0 w0 s (expr "deriv(sin(x)*y, x)") u /\ tree_equals u (expr "deriv(sin(x), x)*y + sin(x)*deriv(y, x)") = true /\
  first_applies (propositional_checker no_libm 0 the_prop_ctx w0) (nth 1 (s_rulesets the_s) []) (expr "deriv(sin(x)*y, x)") u' /\ tree_equals u' u = true /\
  applies no_libm 0 w0 zero_rule (expr "deriv(y, x)") u2 /\ tree_equals u2 (expr "0") = true /\ unnumbered (expr "deriv(y, x)").
Proof.
  exists (nth 27 shipped_rules []).
  pick no_libm 0 w0 (nth 27 shipped_rules []) (expr "deriv(sin(x)*y, x)") ltac:(fun r u => exists u, u).
  pick no_libm 0 w0 zero_rule (expr "deriv(y, x)") ltac:(fun r u => exists u).
  refine (conj _ (conj _ (conj _ (conj _ (conj _ (conj _ (conj _ (conj _ (conj _ _))))))))).
  - apply (nth_error_In _ 27). vm_compute. reflexivity.
  - apply deriv_spec. vm_compute. reflexivity.
  - assert (X : (if in_dec name_dec (nth 27 shipped_rules []) direct_rules then true else false) = false) by (vm_compute; reflexivity).
    destruct (in_dec name_dec (nth 27 shipped_rules []) direct_rules) as [|N]; [discriminate X|exact N].
  - pick no_libm 0 w0 (nth 27 shipped_rules []) (expr "deriv(sin(x)*y, x)") ltac:(fun r u => exists r). refine (conj _ _); vm_compute; reflexivity.
  - vm_compute. reflexivity.
  - exists (firstn 13 (nth 1 (s_rulesets the_s) [])), (nth 13 (nth 1 (s_rulesets the_s) []) (mkRule (mkPat dummy []) dummy)), (skipn 14 (nth 1 (s_rulesets the_s) [])).
    refine (conj _ (conj _ _)); [vm_compute; reflexivity| |vm_compute; reflexivity].
    apply (proj1 (Forall_forall _ _)). 
    assert (X : map (apply_rule (propositional_checker no_libm 0 the_prop_ctx w0) (expr "deriv(sin(x)*y, x)")) (firstn 13 (nth 1 (s_rulesets the_s) [])) = repeat (Ok None) 13) by (vm_compute; reflexivity).
    revert X. generalize (firstn 13 (nth 1 (s_rulesets the_s) [])) as l. generalize 13 as n. clear.
    intros n l. revert n. induction l as [|a l IH]; intros n X; [constructor|]. destruct n as [|n]; [discriminate X|]. cbn [map repeat] in X.
    constructor; [congruence|apply (IH n); congruence].
  - vm_compute. reflexivity.
  - pick no_libm 0 w0 zero_rule (expr "deriv(y, x)") ltac:(fun r u => exists r). refine (conj _ _); vm_compute; reflexivity.
  - vm_compute. reflexivity.
  - let t := eval vm_compute in (expr "deriv(y, x)") in assert (E : expr "deriv(y, x)" = t) by (vm_compute; reflexivity); rewrite E; clear E.
    intros q x i k Sq. destruct q as [|[|[|j]] q]; cbn [subtree nth_error] in Sq; try discriminate Sq.
    + destruct q; [injection Sq as _ Sq _; symmetry; exact Sq|discriminate Sq].
    + destruct q; [injection Sq as _ Sq _; symmetry; exact Sq|discriminate Sq].
    + destruct j; discriminate Sq.
Qed.
Print Assumptions C48_numbers.
Print Assumptions C48_keeps_partial.
Print Assumptions C48_even_partial.
Print Assumptions C48_partial.
Print Assumptions C48_wrong.
Print Assumptions C48_refuted.
Print Assumptions C48_simplify_wrong.
Print Assumptions C48_simplify_refuted.
Print Assumptions C48_steps.
Print Assumptions C48_sections.
Print Assumptions C62_derivative.
Print Assumptions C62_zero.
Print Assumptions C62_round.
Print Assumptions C49_no_negative.
Print Assumptions C49_value.
Print Assumptions C49_evaluation.
Print Assumptions C63_loads.
Print Assumptions C63_defined.
Print Assumptions C64_never_ends.
Print Assumptions C64_refuted.
