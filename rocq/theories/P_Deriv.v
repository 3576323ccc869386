(** Property C73: the two notations of derivatives and what is rejected. *)
From Coq Require Import Reals.
From Coq Require Import List Ascii String NArith ZArith Bool Lia Arith.
From Coq.Floats Require Import SpecFloat.
From Verif Require Import M_Base M_StringUtil M_Tree M_Context M_Parser M_TreeUtil M_Match M_RuleParsing M_ArithCtx M_Strtod M_Double M_Eval M_Simplify M_ShippedRules S_Engine S_Tree S_Parse S_Simplify
  S_Constraint S_Deriv L_Context L_Tree L_ArithCtx L_SetUp L_Expand L_SessionDef L_Constraint L_SimpLoop L_Deriv P_Simplify P_Constraint.
Import ListNotations.
Open Scope string_scope.
Open Scope list_scope.
Open Scope nat_scope.
Open Scope res_scope.

(** The program has loaded a rule file, any one. *)
Definition has_loaded (content : cstr) (sm : simp) : Prop :=
  exists count, init_simplification strtod the_arith_ctx the_prop_ctx (Some content) = Ok (ILoaded sm count).
(** [prime] is the operator of e', [deriv] the one of deriv(e, x). *)
Definition derivative_operators (prime deriv : operator) : Prop :=
  ctx_lookup_op the_arith_ctx (str "'") PPostfix = Ok (Some prime) /\ ctx_lookup_op the_arith_ctx (str "deriv") PFunction = Ok (Some deriv).

(** ** What the module is set up with *)
Definition op_or (r : res (option operator)) : operator := match r with Ok (Some o) => o | _ => mkOp [] 999 None 0 ALeft PInfix 999 end.
Definition the_prime : operator := Eval vm_compute in op_or (ctx_lookup_op the_arith_ctx (str "'") PPostfix).
Definition the_deriv : operator := Eval vm_compute in op_or (ctx_lookup_op the_arith_ctx (str "deriv") PFunction).
Definition the_ne : operator := Eval vm_compute in op_or (ctx_lookup_op the_prop_ctx (str "!=") PInfix).
Definition the_type : operator := Eval vm_compute in op_or (ctx_lookup_op the_prop_ctx (str "type") PFunction).
Definition the_var : operator := Eval vm_compute in op_or (ctx_lookup_op the_prop_ctx (str "VAR") PFunction).
Lemma prime_found : ctx_lookup_op the_arith_ctx (str "'") PPostfix = Ok (Some the_prime). Proof. vm_compute. reflexivity. Qed.
Lemma deriv_found : ctx_lookup_op the_arith_ctx (str "deriv") PFunction = Ok (Some the_deriv). Proof. vm_compute. reflexivity. Qed.
Lemma ne_found : ctx_lookup_op the_prop_ctx (str "!=") PInfix = Ok (Some the_ne). Proof. vm_compute. reflexivity. Qed.
Lemma type_word : ctx_lookup_op the_prop_ctx (str "type") PFunction = Ok (Some the_type). Proof. vm_compute. reflexivity. Qed.
Lemma var_found : ctx_lookup_op the_prop_ctx (str "VAR") PFunction = Ok (Some the_var). Proof. vm_compute. reflexivity. Qed.
Definition x_prime : node := Eval vm_compute in tree_or (parse_easy strtod the_arith_ctx (str "x'")).
Lemma x_prime_parsed : parse_easy strtod the_arith_ctx (str "x'") = Ok (Some x_prime). Proof. vm_compute. reflexivity. Qed.
Lemma x_prime_pattern : get_pattern x_prime [] = PatOk (short_pattern the_prime 0 1). Proof. vm_compute. reflexivity. Qed.
Lemma after_parsed : parse_easy strtod the_arith_ctx (str "deriv(x, z)") = Ok (Some (NOp the_deriv [NVar (str "x") 0 2; NVar (str "z") 0 5] 0)). Proof. vm_compute. reflexivity. Qed.
Definition the_malformed : pattern := malformed_pattern the_deriv the_ne the_type the_var 2 5 0 2 0 7 5.
Lemma malformed_parsed : parse_pattern strtod the_prop_ctx (str "deriv(x, y) WHERE type(y) != VAR") = Ok (Some the_malformed). Proof. vm_compute. reflexivity. Qed.
Lemma iloaded_inj : forall s n s' n', ILoaded s n = ILoaded s' n' -> s = s'. Proof. congruence. Qed.
Lemma loaded_parts : forall content sm, has_loaded content sm ->
  s_before sm = Some (short_pattern the_prime 0 1) /\ s_after sm = Some (NOp the_deriv [NVar (str "x") 0 2; NVar (str "z") 0 5] 0) /\ s_malformed sm = the_malformed.
Proof.
  intros content sm [count H]. unfold init_simplification in H. destruct (parse_rulesets_from_file strtod the_prop_ctx content (repeat [] NUM_RULESETS)) as [[[sets k]|]| |]; cbn [rbind] in H; try discriminate H.
  destruct (k =? NUM_RULESETS); [|discriminate H]. rewrite x_prime_parsed, after_parsed, malformed_parsed in H. cbn [rbind] in H. rewrite x_prime_pattern in H.
  apply okinj in H. apply iloaded_inj in H. rewrite <- H. repeat split.
Qed.
Lemma operators_are : forall prime deriv, derivative_operators prime deriv -> prime = the_prime /\ deriv = the_deriv.
Proof. intros prime deriv [A B]. rewrite prime_found in A. rewrite deriv_found in B. apply okinj, someinj in A. apply okinj, someinj in B. auto. Qed.
Lemma are_different : o_id the_deriv <> o_id the_prime. Proof. vm_compute. discriminate. Qed.
Lemma deriv_listed : o_id the_deriv < 58 /\ o_addr the_deriv < 58. Proof. vm_compute. lia. Qed.

(** ** The short form *)
(** An expression with the short form of derivatives is treated as the one in which each e' is written deriv(e, v), where v
    is the variable of e. *)
Theorem C73_shorthand : forall L fuel g content sm prime deriv t, has_loaded content sm -> derivative_operators prime deriv ->
  arities prime deriv t -> (forall q e, short_at prime t q e -> ~ two_variables e) -> shorts prime t < fuel ->
  exists u, spelled prime deriv t u /\ forall w, apply_derivatives L fuel g the_prop_ctx sm w t = apply_derivatives L fuel g the_prop_ctx sm w u.
Proof.
  intros L fuel g content sm prime deriv t H O A S F. destruct (loaded_parts _ _ H) as (B & Af & _). destruct (operators_are _ _ O) as [-> ->].
  assert (U : unary the_prime t) by (intros q op cs k T E; apply (A q op cs k T); exact E).
  destruct (loop_settled the_prime the_deriv 0 1 sm _ _ _ are_different B Af _ t eq_refl U S) as (u & Sp & K).
  exists u. split; [exact Sp|]. intros w. unfold apply_derivatives. rewrite K by exact F.
  pose proof (spelled_arities the_prime the_deriv are_different t u Sp A) as Au.
  destruct fuel as [|fuel]; [lia|]. rewrite (loop_none the_prime 0 1 sm B fuel w u); [reflexivity| |exact (spelled_shorts the_prime the_deriv are_different t u Sp)].
  intros q op cs k T E. apply (Au q op cs k T). exact E.
Qed.
(** The result has none of the short forms left and is again an expression of the calculator. *)
Theorem C73_spelled : forall prime deriv t u, derivative_operators prime deriv -> spelled prime deriv t u ->
  shorts prime u = 0 /\ (arities prime deriv t -> arities prime deriv u) /\ (of_calculator t -> of_calculator u).
Proof.
  intros prime deriv t u O S. destruct (operators_are _ _ O) as [-> ->].
  split; [exact (spelled_shorts _ _ are_different _ _ S)|]. split; [exact (spelled_arities _ _ are_different _ _ S)|]. intros C. exact (spelled_calculator _ _ _ _ deriv_listed S C).
Qed.
(** If there is an e' with two variables in e, this is reported, at the place of such an e'. *)
Theorem C73_ambiguous : forall L fuel g content sm prime deriv t, has_loaded content sm -> derivative_operators prime deriv ->
  arities prime deriv t -> (exists q e, short_at prime t q e /\ two_variables e) -> shorts prime t < fuel ->
  exists t' p e, short_at prime t' p e /\ two_variables e /\
    forall w, apply_derivatives L fuel g the_prop_ctx sm w t = Done (Ok (w, (t', Some (LISTENERERR_MALFORMED_DERIV_A, p)))).
Proof.
  intros L fuel g content sm prime deriv t H O A (q & e & T & W) F. destruct (loaded_parts _ _ H) as (B & Af & _). destruct (operators_are _ _ O) as [-> ->].
  assert (U : unary the_prime t) by (intros q' op cs k T' E; apply (A q' op cs k T'); exact E).
  destruct (loop_unsettled the_prime the_deriv 0 1 sm _ _ _ are_different B Af _ t eq_refl U) as (t' & p & e' & T' & W' & K).
  { intros S. exact (S q e T W). }
  exists t', p, e'. split; [exact T'|]. split; [exact W'|]. intros w. unfold apply_derivatives. rewrite K by exact F. reflexivity.
Qed.

(** ** Derivatives with respect to something else than a variable *)
Lemma calculator_below : forall q t s, of_calculator t -> subtree t q = Some s -> of_calculator s.
Proof.
  induction q as [|i q IH]; intros t s C S. { injection S as <-. auto. } destruct t as [| |op cs k]; try discriminate S. cbn [subtree] in S. destruct (nth_error cs i) as [c|] eqn:N; [|discriminate S].
  apply (IH c s); auto. intros o I. apply C. right. apply in_flat_map. apply nth_error_In in N. eauto.
Qed.
Lemma type_checked : forall L fuel w b, of_calculator b -> propositional_checker L fuel the_prop_ctx w (NOp the_ne [NOp the_type [b] 0; NOp the_var [] 7] 5) = Ok (negb (varb b)).
Proof.
  intros L fuel w b C. pose proof (constraint_checked L fuel w (fun _ => None) (NOp the_ne [NOp the_type [b] 0; NOp the_var [] 7] 5) (IsNotKind b KindVar)) as H.
  rewrite H; [destruct b; reflexivity| |exact C]. exact (sf_not_kind the_prop_ctx the_ne the_type the_var b KindVar 0 7 5 ne_found type_word var_found).
Qed.
Lemma checked : forall L fuel w t deriv, deriv = the_deriv -> of_calculator t -> (forall q op cs k, subtree t q = Some (NOp op cs k) -> o_id op = o_id deriv -> exists e b, cs = [e; b]) ->
  (find_matching (propositional_checker L fuel the_prop_ctx w) the_malformed t = Ok None /\ forall q e b, long_at deriv t q e b -> is_variable b) \/
  (exists p m e b, find_matching (propositional_checker L fuel the_prop_ctx w) the_malformed t = Ok (Some (p, m)) /\ long_at deriv t p e b /\ ~ is_variable b).
Proof.
  intros L fuel w t deriv -> C A.
  exact (find_malformed the_deriv the_ne the_type the_var (propositional_checker L fuel the_prop_ctx w) 2 5 0 2 0 7 5 of_calculator (type_checked L fuel w) t A (fun q s S => calculator_below q t s C S)).
Qed.
Theorem C73_malformed : forall L fuel g content sm prime deriv t w, has_loaded content sm -> derivative_operators prime deriv ->
  arities prime deriv t -> of_calculator t -> shorts prime t = 0 -> 0 < fuel -> (exists q e b, long_at deriv t q e b /\ ~ is_variable b) ->
  exists p e b, long_at deriv t p e b /\ ~ is_variable b /\
    apply_derivatives L fuel g the_prop_ctx sm w t = Done (Ok (w, (t, Some (LISTENERERR_MALFORMED_DERIV_B, p)))).
Proof.
  intros L fuel g content sm prime deriv t w H O A C Z F (q & e & b & T & V). destruct (loaded_parts _ _ H) as (B & Af & M). destruct (operators_are _ _ O) as [-> E].
  destruct fuel as [|fuel]; [lia|]. unfold apply_derivatives. rewrite (loop_none the_prime 0 1 sm B fuel w t); [|intros q' op cs k T' E'; apply (A q' op cs k T'); exact E'|exact Z].
  cbn [obind oret]. rewrite M.
  destruct (checked L (S fuel) w t deriv E C (fun q op cs k T' => proj2 (A q op cs k T'))) as [[_ N]|(p & m & e' & b' & Fm & T' & V')].
  - destruct V. exact (N q e b T).
  - exists p, e', b'. split; [exact T'|]. split; [exact V'|]. rewrite Fm. reflexivity.
Qed.
(** ** Otherwise: the derivatives are worked out, or one that is left is reported. *)
Lemma found_op : forall op t p, find_op t op = Some p -> exists o cs k, subtree t p = Some (NOp o cs k) /\ o_id o = o_id op.
Proof.
  intros op. induction t as [v k|x i k|o cs k IH] using node_ind'; intros p E; cbn [find_op] in E; try discriminate E.
  destruct (Nat.eqb_spec (o_id o) (o_id op)) as [X|_]. { injection E as <-. exists o, cs, k. auto. }
  assert (K : forall l i, (forall j c, nth_error l j = Some c -> nth_error cs (i + j) = Some c) ->
    (fix go (l : list node) (i : nat) : option path :=
            match l with
            | [] => None
            | c :: l' => match find_op c op with
                         | Some q => Some (i :: q)
                         | None => go l' (S i)
                         end
            end) l i = Some p -> exists o' cs' k', subtree (NOp o cs k) p = Some (NOp o' cs' k') /\ o_id o' = o_id op).
  { clear E. induction l as [|c l IHl]; intros i N E. { discriminate E. }
    assert (Nc : nth_error cs i = Some c) by (rewrite <- (Nat.add_0_r i); apply N; reflexivity).
    destruct (find_op c op) as [q|] eqn:Fc.
    - injection E as <-. rewrite Forall_forall in IH. destruct (IH c (nth_error_In _ _ Nc) q Fc) as (o' & cs' & k' & S & X). exists o', cs', k'. cbn [subtree]. rewrite Nc. auto.
    - eapply IHl; [|exact E]. intros j d Ej. rewrite Nat.add_succ_l, <- Nat.add_succ_r. apply N. exact Ej. }
  exact (K cs 0 (fun j c H => H) E).
Qed.
Lemma not_found_op : forall op t, find_op t op = None -> forall q o cs k, subtree t q = Some (NOp o cs k) -> o_id o <> o_id op.
Proof.
  intros op t F q. apply find_op_none in F. revert t F. induction q as [|i q IH]; intros t F o cs k S. { injection S as ->. apply all_ops_op in F. apply F. }
  destruct t as [| |o' ds j]; try discriminate S. cbn [subtree] in S. destruct (nth_error ds i) as [c|] eqn:N; [|discriminate S]. apply all_ops_op in F. destruct F as [_ F]. rewrite Forall_forall in F. apply nth_error_In in N. eapply IH; eauto.
Qed.
Theorem C73_worked_out : forall L fuel g content sm prime deriv t w w' t' err, has_loaded content sm -> derivative_operators prime deriv ->
  arities prime deriv t -> of_calculator t -> shorts prime t = 0 -> (forall q e b, long_at deriv t q e b -> is_variable b) ->
  apply_derivatives L fuel g the_prop_ctx sm w t = Done (Ok (w', (t', err))) ->
  apply_simplification L fuel g the_prop_ctx w t (nth 1 (s_rulesets sm) []) = Done (Ok (w', t')) /\
  match err with
  | None => forall q op cs k, subtree t' q = Some (NOp op cs k) -> o_id op <> o_id deriv
  | Some (code, p) => code = LISTENERERR_IMPOSSIBLE_DERIV /\ exists op cs k, subtree t' p = Some (NOp op cs k) /\ o_id op = o_id deriv
  end.
Proof.
  intros L fuel g content sm prime deriv t w w' t' err H O A C Z V E. destruct (loaded_parts _ _ H) as (B & Af & M). destruct (operators_are _ _ O) as [-> D].
  destruct fuel as [|fuel]; [discriminate E|]. unfold apply_derivatives in E. rewrite (loop_none the_prime 0 1 sm B fuel w t) in E; [|intros q' op cs k T' E'; apply (A q' op cs k T'); exact E'|exact Z].
  cbn [obind oret] in E. rewrite M, Af in E.
  destruct (checked L (S fuel) w t deriv D C (fun q op cs k T' => proj2 (A q op cs k T'))) as [[Fm _]|(p & m & e' & b' & _ & T' & V')]; [|destruct V'; eauto].
  rewrite Fm in E. cbn [lift] in E.
  destruct (apply_simplification L (S fuel) g the_prop_ctx w t (nth 1 (s_rulesets sm) [])) as [[[w1 t1]| |]|]; cbn [obind] in E; try discriminate E.
  rewrite D. destruct (find_op t1 the_deriv) as [p|] eqn:Fo; injection E as <- <- <-.
  - split; [reflexivity|]. split; [reflexivity|]. exact (found_op _ _ _ Fo).
  - split; [reflexivity|]. exact (not_found_op _ _ Fo).
Qed.
Print Assumptions C73_shorthand.
Print Assumptions C73_spelled.
Print Assumptions C73_ambiguous.
Print Assumptions C73_malformed.
Print Assumptions C73_worked_out.

(** ** Examples *)
Lemma C73_shipped : has_loaded (str shipped_ruleset) the_s.
Proof. exists 135. vm_compute. reflexivity. Qed.
Lemma C73_operators : derivative_operators the_prime the_deriv. Proof. split; [exact prime_found|exact deriv_found]. Qed.
Definition plus_op : operator := Eval vm_compute in op_or (ctx_lookup_op the_arith_ctx (str "+") PInfix).
(** x' + 3', (x + y)' + 1 and deriv(x, 2) as typed *)
Definition case_short : node := NOp plus_op [NOp the_prime [NVar (str "x") 0 0] 1; NOp the_prime [NConst (of_Z 3) 3] 4] 2.
Definition case_ambiguous : node := NOp plus_op [NOp the_prime [NOp plus_op [NVar (str "x") 0 1; NVar (str "y") 0 3] 2] 5; NConst (of_Z 1) 7] 6.
Definition case_malformed : node := NOp the_deriv [NVar (str "x") 0 2; NConst (of_Z 2) 5] 0.
Lemma cases_typed : map (fun s => parse_easy strtod the_arith_ctx (str s)) ["x'+3'"; "(x+y)'+1"; "deriv(x, 2)"] = map (fun t => Ok (Some t)) [case_short; case_ambiguous; case_malformed].
Proof. vm_compute. reflexivity. Qed.
Lemma const_arities : forall p d v k, arities p d (NConst v k).
Proof. intros p d v k [|? q] o ds j S; discriminate S. Qed.
Ltac ar := repeat match goal with
  | |- arities _ _ (NConst _ _) => apply const_arities
  | |- arities _ _ (NVar _ _ _) => apply arities_var
  | |- arities _ _ (NOp _ _ _) => apply arities_op; split; [intros X; vm_compute in X; try discriminate X; eauto|split; [intros X; vm_compute in X; try discriminate X; eauto|]]
  | |- Forall _ _ => constructor
  end.
Example C73_short_case :
  arities the_prime the_deriv case_short /\ (forall q e, short_at the_prime case_short q e -> ~ two_variables e) /\ shorts the_prime case_short = 2 /\
  spelled the_prime the_deriv case_short (NOp plus_op [NOp the_deriv [NVar (str "x") 0 0; NVar (str "x") 0 0] 1; NOp the_deriv [NConst (of_Z 3) 3; NVar (str "z") 0 5] 4] 2).
Proof.
  split; [unfold case_short, case_ambiguous, case_malformed; ar|]. split; [|split; [reflexivity|]].
  - intros q e (op & k & S & E) (y & z & Y & Z & N).
    destruct q as [|[|[|i]] q]; cbn [case_short subtree nth_error] in S; [discriminate S| | |destruct i; discriminate S].
    + destruct q as [|[|i] q]; cbn [subtree nth_error] in S; [injection S as _ <- _; destruct Y as [<-|[]]; destruct Z as [<-|[]]; auto|destruct q; discriminate S|destruct i; discriminate S].
    + destruct q as [|[|i] q]; cbn [subtree nth_error] in S; [injection S as _ <- _; destruct Y|destruct q; discriminate S|destruct i; discriminate S].
  - apply sp_op; [vm_compute; discriminate|]. constructor; [|constructor; [|constructor]].
    + apply sp_prime; [reflexivity| |constructor]. right. split; [left; reflexivity|]. intros y [<-|[]]. reflexivity.
    + apply sp_prime; [reflexivity| |constructor]. left. split; reflexivity.
Qed.
Example C73_ambiguous_case : arities the_prime the_deriv case_ambiguous /\ exists q e, short_at the_prime case_ambiguous q e /\ two_variables e.
Proof.
  split; [unfold case_short, case_ambiguous, case_malformed; ar|]. exists [0], (NOp plus_op [NVar (str "x") 0 1; NVar (str "y") 0 3] 2). split; [exists the_prime, 5; split; reflexivity|].
  exists (str "x"), (str "y"). split; [left; reflexivity|]. split; [right; left; reflexivity|discriminate].
Qed.
Example C73_malformed_case : arities the_prime the_deriv case_malformed /\ of_calculator case_malformed /\ shorts the_prime case_malformed = 0 /\
  exists q e b, long_at the_deriv case_malformed q e b /\ ~ is_variable b.
Proof.
  split; [unfold case_short, case_ambiguous, case_malformed; ar|]. split; [intros op [<-|[]]; exact deriv_listed|]. split; [reflexivity|]. exists [], (NVar (str "x") 0 2), (NConst (of_Z 2) 5). split; [exists the_deriv, 0; split; reflexivity|]. intros (? & ? & ? & X). discriminate X.
Qed.
(** (x^2)' is worked out to the same tree as deriv(x^2, x). *)
Definition result (s : string) : option node :=
  match apply_derivatives no_libm 20 the_arith_ctx the_prop_ctx the_s w0 (expr s) with Done (Ok (_, (t, None))) => Some t | _ => None end.
Example C73_worked_case : match result "(x^2)'", result "deriv(x^2, x)" with Some a, Some b => tree_equals a b | _, _ => false end = true.
Proof. vm_compute. reflexivity. Qed.
