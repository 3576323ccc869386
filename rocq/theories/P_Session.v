(** Sessions: functions, definitions, clearing, commands, scripts (C38-C41, C52, C55, C56, C65). *)
From Coq Require Import List Ascii String NArith ZArith Bool Lia Arith Permutation.
From Coq.Floats Require Import SpecFloat.
From Verif Require Import M_Base M_StringUtil M_LinkedList M_Trie M_Tree M_Context M_Tokenizer M_Parser M_TreeUtil M_Match M_RuleParsing M_ArithCtx
  M_Double M_Eval M_Simplify M_Session
  S_Util S_Engine S_Parse S_Tree S_Match S_Session L_StringUtil L_LinkedList L_Trie L_Tokenizer L_Context P_Context L_ArithCtx L_SetUp L_Lex
  L_Tree L_Match L_MatchRule L_RuleParsing P_Parse L_Expand L_SessionCtx L_OpsKept L_Session L_SessionDef L_SessionCmd L_Reach L_SessionFun L_SessionEx P_Match P_Simplify M_Strtod M_ShippedRules.
Import ListNotations.
Open Scope list_scope.
Open Scope nat_scope.
Open Scope res_scope.

Open Scope string_scope.
Open Scope list_scope.
Open Scope nat_scope.

(** ** Sessions for the examples *)
Definition no_files : cstr -> option (list ascii) := fun _ => None.
Definition shipped_files : cstr -> option (list ascii) := fun p => if streqb p (str "rules") then Some (str shipped_ruleset) else None.
(** Sessions without simplification rules *)
Definition bare (ls : list string) : option (session * list fundef) := tracked no_libm 20 no_files true (str "rules") ls.
(** Sessions with the rules that come with the program; functions are cleared in reverse order of definition only. *)
Definition full (ls : list string) : option (session * list fundef) := tracked no_libm 300 shipped_files false (str "rules") ls.
Definition dead : session := mkSession ctx_create ctx_create [] None (mkWorld [] []).
Definition state (x : option (session * list fundef)) : session := match x with Some (s, _) => s | None => dead end.
Definition functions (x : option (session * list fundef)) : list fundef := match x with Some (_, d) => d | None => [] end.
Definition lives (x : option (session * list fundef)) : bool := match x with Some _ => true | None => false end.
Lemma bare_reached : forall ls, lives (bare ls) = true -> session_of no_libm 20 strtod no_files any_function (state (bare ls)) (functions (bare ls)).
Proof.
  intros ls H. assert (S : sound no_libm 20 no_files true (bare ls)) by apply tracked_sound. revert H S. generalize (bare ls). intros [[s d]|] H S; [|discriminate H]. exact (S s d eq_refl).
Qed.
Lemma full_reached : forall ls, lives (full ls) = true -> session_of no_libm 300 strtod shipped_files youngest (state (full ls)) (functions (full ls)).
Proof.
  intros ls H. assert (S : sound no_libm 300 shipped_files false (full ls)) by apply tracked_sound. revert H S. generalize (full ls). intros [[s d]|] H S; [|discriminate H]. exact (S s d eq_refl).
Qed.
(** The tree of an expression *)
Definition tree_in (s : session) (i : string) : list cstr * node :=
  match parse_input strtod (ss_ctx s) (str i) with Ok (ts, PTree t) => (ts, t) | _ => ([], NConst S754_nan 0) end.
Definition parses (s : session) (i : string) : bool := match parse_input strtod (ss_ctx s) (str i) with Ok (_, PTree _) => true | _ => false end.
Lemma tree_parsed : forall s i, parses s i = true -> parse_input strtod (ss_ctx s) (str i) = Ok (fst (tree_in s i), PTree (snd (tree_in s i))).
Proof. intros s i. unfold parses, tree_in. destruct (parse_input strtod (ss_ctx s) (str i)) as [(ts & [t| |])| |]; intro H; try discriminate H. reflexivity. Qed.

Definition same_double (a b : double) : bool :=
  match a, b with
  | S754_finite s m e, S754_finite s' m' e' => Bool.eqb s s' && Pos.eqb m m' && Z.eqb e e'
  | S754_zero s, S754_zero s' | S754_infinity s, S754_infinity s' => Bool.eqb s s'
  | S754_nan, S754_nan => true
  | _, _ => false
  end.
Lemma same_double_ok : forall a b, same_double a b = true -> a = b.
Proof.
  intros [s|s| |s m e] [s'|s'| |s' m' e'] H; cbn in H; try discriminate H; auto; rewrite ?andb_true_iff in H.
  - apply Bool.eqb_prop in H. congruence.
  - apply Bool.eqb_prop in H. congruence.
  - destruct H as [[H1 H2] H3]. apply Bool.eqb_prop in H1. apply Pos.eqb_eq in H2. apply Z.eqb_eq in H3. congruence.
Qed.
Definition yields (v : double) (r : step (world * option node)) : bool :=
  match r with Done (Ok (_, Some (NConst v' _))) => same_double v v' | _ => false end.

(** ** C38 *)
(** f(x)=x; g(x)=x+1; clear f; h(x)=x+2; now h(1) is 2: the number of h is that of g. *)
Notation C38_session := (bare ["f(x)=x"; "g(x)=x+1"; "clear f"; "h(x)=x+2"]).
(** What an expression simplifies to, and what its expansion does *)
Definition called (k : nat) (x : option (session * list fundef)) (i : string) : step (world * option node) :=
  answer (arith_simplify no_libm (20 + k) (state x) (fst (tree_in (state x) i)) (snd (tree_in (state x) i))).
Definition meant (k : nat) (x : option (session * list fundef)) (i : string) : step (world * option node) :=
  answer (arith_simplify no_libm (20 + k) (with_funs (state x) []) (fst (tree_in (state x) i)) (expand (functions x) (snd (tree_in (state x) i)))).
Lemma C38_agree : forall x i v v', calls_expanded no_libm strtod (state x) (functions x) -> parses (state x) i = true ->
  (forall k, yields v (called k x i) = true) -> (forall k, yields v' (meant k x i) = true) -> v = v'.
Proof.
  intros x i v v' H P A B. apply tree_parsed in P. destruct (H _ _ _ P) as [m E]. specialize (E (20 + m) (Nat.le_add_l m 20)). specialize (A m). specialize (B m).
  unfold called in A. rewrite E in A. fold (meant m x i) in A. revert A B. generalize (meant m x i). intros r. unfold yields.
  destruct r as [[(w & [[v0 j| |]|])| |]|]; try discriminate. intros A B. apply same_double_ok in A, B. congruence.
Qed.
Lemma C38_lives : lives C38_session = true. Proof. vm_compute. reflexivity. Qed.
Lemma C38_parses : parses (state C38_session) "h(1)" = true. Proof. vm_compute. reflexivity. Qed.
Lemma C38_called : forall k, yields (of_Z 2) (called k C38_session "h(1)") = true. Proof. intro k. vm_compute. reflexivity. Qed.
Lemma C38_meant : forall k, yields (of_Z 3) (meant k C38_session "h(1)") = true. Proof. intro k. vm_compute. reflexivity. Qed.
Lemma two_three : of_Z 2 <> of_Z 3. Proof. vm_compute. discriminate. Qed.
Theorem C38_calls_expanded_refuted :
  ~ (forall L fuel strtod files s defs, session_of L fuel strtod files any_function s defs -> calls_expanded L strtod s defs).
Proof.
  intros H. exact (two_three (C38_agree C38_session "h(1)" (of_Z 2) (of_Z 3) (H _ _ _ _ _ _ (bare_reached _ C38_lives)) C38_parses C38_called C38_meant)).
Qed.
(** True if functions are cleared in reverse order of their definition, or all at once. *)
Theorem C38_calls_expanded_partial : forall L fuel strtod files s defs, session_of L fuel strtod files youngest s defs -> calls_expanded L strtod s defs.
Proof. exact reach_expanded. Qed.
Lemma names_differ : forall defs, NoDup (map f_op defs) -> (forall f g, In f defs -> In g defs -> o_name (f_op f) = o_name (f_op g) -> f_op f = f_op g) ->
  NoDup (map (fun f => o_name (f_op f)) defs).
Proof.
  induction defs as [|f defs IH]; intros N H; cbn [map] in *; [constructor|]. apply NoDup_cons_iff in N. destruct N as [N1 N2]. constructor.
  - intro I. apply in_map_iff in I. destruct I as (g & E & Ig). apply N1. rewrite (H f g); [apply in_map; auto|left; auto|right; auto|auto].
  - apply IH; auto. intros a b Ia Ib. apply H; right; auto.
Qed.
Lemma F2_in : forall A B (P : A -> B -> Prop) la lb b, Forall2 P la lb -> In b lb -> exists a, In a la /\ P a b.
Proof. intros A B P la lb b F I. induction F as [|x y la lb H F IH]; [destruct I|]. destruct I as [->|I]; [exists x|destruct (IH I) as (a & Ia & Pa); exists a]; split; auto; [left|right]; auto. Qed.
(** In every session the functions have different names, which are no names of the calculator's functions; the parser knows
    each of them, with the number of its parameters. *)
Theorem C38_functions_known : forall L fuel strtod files s defs, session_of L fuel strtod files any_function s defs ->
  NoDup (map (fun f => o_name (f_op f)) defs) /\
  (forall f, In f defs -> ctx_lookup_op (ss_ctx s) (o_name (f_op f)) PFunction = Ok (Some (f_op f)) /\ o_arity (f_op f) = Some (List.length (f_params f)) /\
     NoDup (f_params f) /\ incl (var_names (f_body f)) (f_params f) /\ Forall calculator_operator (operators_of (f_body f))).
Proof.
  intros L fuel sd files s defs R. pose proof (reach_inv _ _ _ _ _ _ _ R) as V. pose proof (i_funs _ _ V) as F. rewrite Forall_forall in F.
  pose proof (i_ctx _ _ V) as S. split.
  - pose proof (NoDup_keyed _ _ (proj1 S)) as ND. rewrite map_app in ND. apply NoDup_tail in ND. apply NoDup_map_inv in ND. apply names_differ; auto.
    intros f g If Ig E. destruct (sctx_unique _ _ _ S (in_map f_op _ _ If)) as [U1 _]. destruct (sctx_unique _ _ _ S (in_map f_op _ _ Ig)) as [U2 _].
    rewrite E, (proj1 (F f If)) in U1. rewrite (proj1 (F g Ig)), U1 in U2. congruence.
  - intros f If. destruct (F f If) as (P & A & _ & _ & _ & (N & _) & B). destruct (sctx_unique _ _ _ S (in_map f_op _ _ If)) as [U1 U2]. rewrite P in U1, U2.
    rewrite (lookup_crep _ _ _ _ (proj1 S)), reg_find_app, U2, U1. split; auto. split; auto. split; auto. split.
    + destruct (F2_in _ _ _ _ _ f (i_rules _ _ V) If) as (r & _ & vs & k & pat & _ & <- & Ep & Er). apply (C36_get_rule_accepts _ _ _ (f_body f) Ep). eauto.
    + apply Forall_forall. intros op Io. apply calculator_builtin. revert op Io. apply G_operators. exact B.
Qed.
(** An accepted line defines exactly one function. *)
Theorem C38_defined_once : forall L fuel strtod files s defs d l s' o, session_of L fuel strtod files any_function s defs -> handles KDefinition l -> ~ In "["%char l ->
  exec_command L fuel strtod files (S d) s l = Done (Ok (Did s' o true)) -> exists! f, defines L fuel strtod s l s' f.
Proof.
  intros L fuel sd files s defs d l s' o R H B E. rewrite exec_definition in E by auto.
  destruct (accepted_defines _ _ _ _ _ _ _ _ (reach_inv _ _ _ _ _ _ _ R) H B E) as (f & _ & D & _ & U & _). exists f. split; auto. intros f' D'. symmetry. auto.
Qed.
Notation C38_full := (full ["f(x)=x*x+1"; "g(x,y)=f(x)*y"; "g(3,2)"; "h(x)=x+2"; "clear h"; "table x+1 1 ; 3 ; 1"; "g(x)=x"; "help"]).
Example C38_case : session_of no_libm 300 strtod shipped_files youngest (state C38_full) (functions C38_full) /\
  map (fun f => (o_name (f_op f), f_params f)) (functions C38_full) = [(str "f", [str "x"]); (str "g", [str "x"; str "y"])] /\
  parses (state C38_full) "1+g(3,f(2))" = true /\ match ss_simp (state C38_full) with Some _ => True | None => False end.
Proof. split; [apply full_reached; vm_compute; reflexivity|]. split; [vm_compute; reflexivity|]. split; vm_compute; auto. Qed.
Print Assumptions C38_calls_expanded_refuted.
Print Assumptions C38_calls_expanded_partial.
Print Assumptions C38_functions_known.
Print Assumptions C38_defined_once.

(** ** C55 *)
(** In every session, whatever was defined and cleared before *)
Theorem C55_expansion_ends : forall L fuel strtod files s defs, session_of L fuel strtod files any_function s defs ->
  forall input ts t, parse_input strtod (ss_ctx s) input = Ok (ts, PTree t) ->
  exists m t' k, call_free defs t' /\ forall fuel', m <= fuel' -> apply_ruleset fuel' (fun _ => Ub) (ss_funs s) 0 t = Ok (Some (t', k)) /\
    answer (arith_simplify L fuel' s ts t) = answer (arith_simplify L fuel' (with_funs s []) ts t').
Proof. intros. eapply reach_ends; eauto. Qed.
Definition has_call (fs : list fundef) (t : node) : bool := existsb (fun op => existsb (fun f => names f op) fs) (operators_of t).
Lemma has_call_ok : forall fs t, has_call fs t = true -> ~ call_free fs t.
Proof.
  intros fs t X H. apply existsb_exists in X. destruct X as (op & Io & X). apply existsb_exists in X. destruct X as (f & If & N). apply (H op Io). exists f. auto.
Qed.
Lemma C55_calls : has_call (functions C38_session) (snd (tree_in (state C38_session) "g(h(g(h(1)+2)))")) = true. Proof. vm_compute. reflexivity. Qed.
Lemma C55_parses : parses (state C38_session) "g(h(g(h(1)+2)))" = true. Proof. vm_compute. reflexivity. Qed.
Example C55_case : session_of no_libm 20 strtod no_files any_function (state C38_session) (functions C38_session) /\
  parses (state C38_session) "g(h(g(h(1)+2)))" = true /\ ~ call_free (functions C38_session) (snd (tree_in (state C38_session) "g(h(g(h(1)+2)))")).
Proof. exact (conj (bare_reached _ C38_lives) (conj C55_parses (has_call_ok _ _ C55_calls))). Qed.
Print Assumptions C55_expansion_ends.

(** ** C39 *)
Lemma same_lookups : forall c c' us, sctx c us -> sctx c' us -> same_operators c c'.
Proof. intros c c' us S S' n p. rewrite (lookup_crep _ _ _ _ (proj1 S)), (lookup_crep _ _ _ _ (proj1 S')). reflexivity. Qed.
(** A rejected line changes neither the functions nor the rules nor the operators; every text is parsed as before. *)
Theorem C39_rejected_unchanged : forall L fuel strtod files s defs d l s' o, session_of L fuel strtod files any_function s defs -> handles KDefinition l -> ~ In "["%char l ->
  exec_command L fuel strtod files (S d) s l = Done (Ok (Did s' o false)) ->
  ss_funs s' = ss_funs s /\ ss_simp s' = ss_simp s /\ same_operators (ss_ctx s) (ss_ctx s') /\
  (forall input, parse_input strtod (ss_ctx s') input = parse_input strtod (ss_ctx s) input) /\ o = [SError].
Proof.
  intros L fuel sd files s defs d l s' o R H B E. pose proof (reach_inv _ _ _ _ _ _ _ R) as V. rewrite exec_definition in E by auto.
  destruct (rejected_keeps _ _ _ _ _ _ _ _ V H B E) as (V' & (K1 & K2 & K3) & ->). pose proof (i_ctx _ _ V) as S. pose proof (i_ctx _ _ V') as S'.
  split; auto. split; auto. split; [eapply same_lookups; eauto|]. split; auto. intro i. eapply sctx_parse; eauto.
Qed.
Lemma same_ok : forall A (x : res A) a b, x = Ok a -> x = Ok b -> a = b. Proof. intros A x a b -> E. injection E as E. exact E. Qed.
Lemma ok_inj : forall A (a b : A), Ok a = Ok b -> a = b. Proof. intros A a b E. injection E as E. exact E. Qed.
(** The operators the calculator starts with are known in every session, with all their properties. *)
Theorem C39_builtins_kept : forall L fuel strtod files s defs g name place op, session_of L fuel strtod files any_function s defs -> get_arith_ctx = Ok g ->
  ctx_lookup_op g name place = Ok (Some op) -> ctx_lookup_op (ss_ctx s) name place = Ok (Some op).
Proof.
  intros L fuel sd files s defs g n p op R Eg Lk. pose proof (reach_inv _ _ _ _ _ _ _ R) as V. pose proof (i_ctx _ _ V) as S.
  rewrite <- (same_ok _ _ _ _ (proj1 arith_ctx_ok) Eg), (lookup_crep _ _ _ _ (proj1 (proj2 arith_ctx_ok))) in Lk. apply ok_inj in Lk.
  rewrite (lookup_crep _ _ _ _ (proj1 S)), reg_find_app, Lk. reflexivity.
Qed.
(** An accepted line defines a function whose name was not the name of a function before. *)
Theorem C39_names_are_new : forall L fuel strtod files s defs d l s' o f, session_of L fuel strtod files any_function s defs -> handles KDefinition l -> ~ In "["%char l ->
  exec_command L fuel strtod files (S d) s l = Done (Ok (Did s' o true)) -> defines L fuel strtod s l s' f ->
  ctx_lookup_op (ss_ctx s) (o_name (f_op f)) PFunction = Ok None /\ extends (ss_ctx s) (f_op f) (ss_ctx s').
Proof.
  intros L fuel sd files s defs d l s' o f R H B E D. pose proof (reach_inv _ _ _ _ _ _ _ R) as V. rewrite exec_definition in E by auto.
  destruct (accepted_defines _ _ _ _ _ _ _ _ V H B E) as (g & _ & _ & _ & U & _ & _ & _ & _ & _ & N & S'). rewrite (U f D) in *. pose proof (i_ctx _ _ V) as S.
  split; [rewrite (lookup_crep _ _ _ _ (proj1 S)), N; reflexivity|]. intros n p. rewrite (lookup_crep _ _ _ _ (proj1 S)), (lookup_crep _ _ _ _ (proj1 S')), map_app, app_assoc, reg_find_app.
  destruct (reg_find (arith_registry ++ map f_op defs) n p); reflexivity.
Qed.
(** What a command answers *)
Definition flag (r : step cmdres) : option bool := match r with Done (Ok (Did _ _ b)) => Some b | _ => None end.
Notation run_in x l := (exec_command no_libm 20 strtod no_files 1 (state x) (str l)).
(** Unbound variable, built-in name, name taken, recursion, repeated parameter, constant parameter, syntax error; then an accepted line *)
Lemma C39_flags : map (fun l => flag (run_in C38_session l)) ["k(x)=y"; "sin(x)=x"; "g(x)=x"; "k(x)=k(x)"; "k(x,x)=x"; "k(1)=1"; "k(x)=x+"; "k(x)=x+1"]
  = [Some false; Some false; Some false; Some false; Some false; Some false; Some false; Some true].
Proof. vm_compute. reflexivity. Qed.
Lemma C39_kinds : map (fun l => kind_of (str l)) ["k(x)=y"; "sin(x)=x"; "g(x)=x"; "k(x)=k(x)"; "k(x,x)=x"; "k(1)=1"; "k(x)=x+"; "k(x)=x+1"] = repeat KDefinition 8.
Proof. vm_compute. reflexivity. Qed.
Lemma flag_did : forall r b, flag r = Some b -> exists s' o, r = Done (Ok (Did s' o b)).
Proof. intros [[[s' o b'|]| |]|] b E; try discriminate E. injection E as <-. eauto. Qed.
Lemma C39_recursive : flag (run_in C38_session "k(x)=k(x)") = Some false. Proof. vm_compute. reflexivity. Qed.
Example C39_case : session_of no_libm 20 strtod no_files any_function (state C38_session) (functions C38_session) /\
  exists s' o, exec_command no_libm 20 strtod no_files 1 (state C38_session) (str "k(x)=k(x)") = Done (Ok (Did s' o false)).
Proof. exact (conj (bare_reached _ C38_lives) (flag_did (run_in C38_session "k(x)=k(x)") false C39_recursive)). Qed.
Print Assumptions C39_rejected_unchanged.
Print Assumptions C39_builtins_kept.
Print Assumptions C39_names_are_new.

(** ** C40 *)
(** f(x)=1/0: the error found while simplifying the right side is not expected. *)
Notation C40_session := (bare []).
Definition is_ub (r : step cmdres) : bool := match r with Done Ub => true | _ => false end.
Lemma is_ub_ok : forall r, is_ub r = true -> r = Done Ub. Proof. intros [[| |]|] E; try discriminate E. reflexivity. Qed.
Lemma C40_lives : lives C40_session = true. Proof. vm_compute. reflexivity. Qed.
Lemma C40_crash : is_ub (run_in C40_session "f(x)=1/0") = true. Proof. vm_compute. reflexivity. Qed.
Theorem C40_definitions_safe_refuted :
  ~ (forall L fuel strtod files s defs d l, session_of L fuel strtod files any_function s defs -> handles KDefinition l -> exec_command L fuel strtod files (S d) s l <> Done Ub).
Proof.
  intros H. exact (H no_libm 20 strtod no_files _ _ 0 (str "f(x)=1/0") (bare_reached _ C40_lives) (kind_of_ok (str "f(x)=1/0")) (is_ub_ok _ C40_crash)).
Qed.
(** The other way to crash is a comma the parser cannot handle: f((a,b))=1 and f(x)=((1,x)) *)
Theorem C40_commas : is_ub (run_in C40_session "f((a,b))=1") = true /\ is_ub (run_in C40_session "f(x)=((1,x))") = true.
Proof. split; vm_compute; reflexivity. Qed.
Lemma sctx_extends : forall c us op c', sctx c us -> sctx c' (us ++ [op]) -> extends c op c'.
Proof.
  intros c us op c' S S' n p. rewrite (lookup_crep _ _ _ _ (proj1 S)), (lookup_crep _ _ _ _ (proj1 S')), app_assoc, reg_find_app. destruct (reg_find (arith_registry ++ us) n p); reflexivity.
Qed.
(** Otherwise the line is accepted or rejected, unless the right side has no simplification. *)
Theorem C40_definitions_safe_partial : forall L fuel strtod files s defs d l left right tsl tsr, session_of L fuel strtod files any_function s defs ->
  handles KDefinition l -> ~ In "["%char l -> cut_at_first (str "=") l left right ->
  tokenize_with (c_kw (ss_ctx s)) left = Ok tsl -> tokenize_with (c_kw (ss_ctx s)) right = Ok tsr ->
  safe_delimiters [] false (unblanked tsl) -> safe_delimiters [] false (unblanked tsr) ->
  (exists s' o b, exec_command L fuel strtod files (S d) s l = Done (Ok (Did s' o b))) \/
  (exists c op ts t, extends (ss_ctx s) op c /\ parse_input strtod c right = Ok (ts, PTree t) /\
     forall s1 b, arith_simplify L fuel (with_ctx s c) ts t <> Done (Ok (s1, Some b))).
Proof.
  intros L fuel sd files s defs d l left right tsl tsr R H NB Cut Tl Tr Sl Sr. pose proof (reach_inv _ _ _ _ _ _ _ R) as V. pose proof (i_ctx _ _ V) as S. rewrite exec_definition by auto.
  inversion H as [| |l' H1 H2 H3| | |]; subst. apply definition_spec in H3. unfold cmd_definition_check in H3.
  destruct (strstr l DEFINITION_OP) as [n|] eqn:St; [|discriminate H3]. pose proof (strstr_some _ _ _ St) as [_ Cut']. change (List.length DEFINITION_OP) with 1 in Cut'.
  destruct (cut_fixed _ _ _ _ _ _ Cut Cut') as [El Er].
  assert (NU : forall c op side ts, sctx c (map f_op defs ++ [op]) -> tokenize_with (c_kw (ss_ctx s)) side = Ok ts -> safe_delimiters [] false (unblanked ts) -> parse_input sd c side <> Ub).
  { intros c op side ts Sc T Sf E. destruct (C16_parse_crash_cause sd c side (proj1 (proj2 Sc)) ts) as (_ & X & _); [|exact (X E Sf)].
    rewrite (session_tokens c (ss_ctx s) _ _ _ Sc S). exact T. }
  destruct (definition_cases L fuel sd s defs l n V NB St) as [(s2 & E & _)|[(name & (s2 & f & E & _) & _)|[(_ & c & op & Sc & Cr)|(c & op & ts & t & Sc & Ep & _ & Fa)]]].
  - left. eauto.
  - left. eauto.
  - exfalso. destruct Cr as [Cr|Cr]; [apply (NU c op left tsl)|apply (NU c op right tsr)]; auto; subst; auto.
  - right. exists c, op, ts, t. split; [eapply sctx_extends; eauto|]. split; [subst; auto|].
    intros s1 b E. rewrite E in Fa. destruct Fa as [((s3 & X) & _)|[(X & _)|[(X & _)|(X & _)]]]; discriminate X.
Qed.
Example C40_case : session_of no_libm 20 strtod no_files any_function (state C38_session) (functions C38_session) /\
  handles KDefinition (str "k(x,y)=(x+g(y))*2") /\ ~ In "["%char (str "k(x,y)=(x+g(y))*2") /\
  cut_at_first (str "=") (str "k(x,y)=(x+g(y))*2") (str "k(x,y)") (str "(x+g(y))*2") /\
  (exists ts, tokenize_with (c_kw (ss_ctx (state C38_session))) (str "k(x,y)") = Ok ts /\ safe_delimiters [] false (unblanked ts)) /\
  (exists ts, tokenize_with (c_kw (ss_ctx (state C38_session))) (str "(x+g(y))*2") = Ok ts /\ safe_delimiters [] false (unblanked ts)).
Proof.
  split; [exact (bare_reached _ C38_lives)|]. split; [exact (kind_of_ok (str "k(x,y)=(x+g(y))*2"))|]. split; [vm_compute; intuition discriminate|].
  split; [exact (proj2 (strstr_some (str "k(x,y)=(x+g(y))*2") (str "=") 6 eq_refl))|]. split.
  - exists (map str ["k"; "("; "x"; ","; "y"; ")"]). split; [vm_compute; reflexivity|vm_compute; auto].
  - exists (map str ["("; "x"; "+"; "g"; "("; "y"; ")"; ")"; "*"; "2"]). split; [vm_compute; reflexivity|vm_compute; auto].
Qed.
Print Assumptions C40_definitions_safe_refuted.
Print Assumptions C40_definitions_safe_partial.

(** ** C41 *)
Lemma no_rules : forall rs (R : rule -> fundef -> Prop), Forall2 R rs [] -> rs = []. Proof. intros rs R F. inversion F. reflexivity. Qed.
Lemma removed_lookup : forall us op n p, o_place op = PFunction -> reg_find arith_registry (o_name op) (o_place op) = None ->
  Ok (reg_find (arith_registry ++ without (o_name op) us) n p) = if same_slot n p op then Ok None else Ok (reg_find (arith_registry ++ us) n p).
Proof.
  intros us op n p P N. destruct (same_slot n p op) eqn:E.
  - apply same_slot_spec in E. destruct E as [<- <-]. rewrite reg_find_app, N. unfold without, reg_find. rewrite P. induction us as [|u us IH]; auto. cbn [filter].
    destruct (same_slot (o_name op) PFunction u) eqn:Eu; cbn [negb]; auto. cbn [List.find]. rewrite Eu. exact IH.
  - apply (f_equal (@Ok _)). rewrite !reg_find_app. destruct (reg_find arith_registry n p); auto. unfold without, reg_find. induction us as [|u us IH]; auto. cbn [filter List.find].
    destruct (same_slot (o_name op) PFunction u) eqn:Eu; cbn [negb].
    + assert (Q : same_slot n p u = false); [|rewrite Q; exact IH]. destruct (same_slot n p u) eqn:Q; auto. apply same_slot_spec in Eu, Q. destruct Eu, Q.
      assert (X : same_slot n p op = true) by (apply same_slot_spec; split; congruence). congruence.
    + cbn [List.find]. destruct (same_slot n p u); auto.
Qed.
(** clear alone: no function is left, the operators are those the calculator starts with. *)
Theorem C41_clear_all : forall L fuel strtod files s defs d g, session_of L fuel strtod files any_function s defs -> get_arith_ctx = Ok g ->
  exists s', exec_command L fuel strtod files (S d) s (str "clear") = Done (Ok (Did s' [] true)) /\ session_of L fuel strtod files any_function s' [] /\
    ss_funs s' = [] /\ same_operators g (ss_ctx s') /\ ss_simp s' = ss_simp s /\ ss_world s' = ss_world s.
Proof.
  intros L fuel sd files s defs d g R Eg. pose proof (reach_inv _ _ _ _ _ _ _ R) as V. destruct (clear_ok _ _ V) as (s2 & C & V2 & K1 & K2 & K3).
  assert (E : exec_command L fuel sd files (S d) s (str "clear") = Done (Ok (Did s2 [] true))).
  { rewrite exec_clear by apply clear_kind. unfold cmd_clear_exec. change (streqb CLEAR_COMMAND (str "clear")) with true. cbn iota. rewrite C. reflexivity. }
  exists s2. split; [exact E|]. split; [eapply so_clear_all; eauto|]. split; [exact (no_rules _ _ (i_rules _ _ V2))|]. split; auto.
  rewrite <- (same_ok _ _ _ _ (proj1 arith_ctx_ok) Eg). exact (same_lookups _ _ _ sctx_init (i_ctx _ _ V2)).
Qed.
(** clear with the name of a function: this function is gone, the others and their order stay. *)
Theorem C41_clear_function : forall L fuel strtod files s d1 f d2 d l, session_of L fuel strtod files any_function s (d1 ++ f :: d2) ->
  handles KClear l -> l <> str "clear" -> skipn 6 l = o_name (f_op f) ->
  exists s', exec_command L fuel strtod files (S d) s l = Done (Ok (Did s' [] true)) /\ session_of L fuel strtod files any_function s' (d1 ++ d2) /\
    (forall r1 r r2, ss_funs s = r1 ++ r :: r2 -> List.length r1 = List.length d1 -> ss_funs s' = r1 ++ r2) /\
    (forall name place, ctx_lookup_op (ss_ctx s') name place = if same_slot name place (f_op f) then Ok None else ctx_lookup_op (ss_ctx s) name place) /\
    ss_simp s' = ss_simp s /\ ss_world s' = ss_world s.
Proof.
  intros L fuel sd files s d1 f d2 d l R H N Sk. pose proof (reach_inv _ _ _ _ _ _ _ R) as V.
  destruct (clear_named _ _ l V (not_just_clear _ N)) as [(e1 & g & e2 & s2 & Ed & En & Er & V2 & (K1 & K2 & K3) & Fu)|[A _]].
  - destruct (mid_unique _ _ _ _ _ _ _ (i_ctx _ _ V) Ed (i_funs _ _ V)) as (<- & <- & <-); [congruence|]. clear Ed En.
    assert (E : exec_command L fuel sd files (S d) s l = Done (Ok (Did s2 [] true))) by (rewrite exec_clear; auto).
    exists s2. split; [exact E|]. split; [eapply so_clear; eauto; exact Logic.I|]. split; [exact Fu|]. split; [|auto].
    intros n p. pose proof (i_ctx _ _ V) as S. pose proof (i_ctx _ _ V2) as S2. rewrite (lookup_crep _ _ _ _ (proj1 S)), (lookup_crep _ _ _ _ (proj1 S2)).
    assert (If : In (f_op f) (map f_op (d1 ++ f :: d2))) by (apply in_map, in_or_app; right; left; auto).
    destruct (sctx_unique _ _ _ S If) as [U1 U2]. pose proof (i_funs _ _ V) as F. rewrite Forall_forall in F. destruct (F f) as (P & _). { apply in_or_app; right; left; auto. }
    pose proof (without_mid _ _ _ _ S P) as W. rewrite <- W. apply removed_lookup; auto.
  - exfalso. apply (A f); auto. apply in_or_app. right. left. auto.
Qed.
(** clear with any other text: an error, nothing is changed. *)
Theorem C41_clear_unknown : forall L fuel strtod files s defs d l, session_of L fuel strtod files any_function s defs ->
  handles KClear l -> l <> str "clear" -> (forall f, In f defs -> o_name (f_op f) <> skipn 6 l) ->
  exec_command L fuel strtod files (S d) s l = Done (Ok (Did s [SError] false)).
Proof.
  intros L fuel sd files s defs d l R H N A. pose proof (reach_inv _ _ _ _ _ _ _ R) as V. rewrite exec_clear by auto.
  destruct (clear_named _ _ l V (not_just_clear _ N)) as [(e1 & g & e2 & s2 & -> & En & _)|[_ E]]; auto. exfalso. apply (A g); auto. apply in_or_app. right. left. auto.
Qed.
Lemma C41_builtin : flag (run_in C38_session "clear sin") = Some false. Proof. vm_compute. reflexivity. Qed.
Lemma C41_gone : flag (run_in C38_session "clear f") = Some false. Proof. vm_compute. reflexivity. Qed.
Lemma C41_there : flag (run_in C38_session "clear g") = Some true. Proof. vm_compute. reflexivity. Qed.
Definition C41_names : bool := match functions C38_session with [f; _] => streqb (skipn 6 (str "clear g")) (o_name (f_op f)) | _ => false end.
Example C41_case : session_of no_libm 20 strtod no_files any_function (state C38_session) (functions C38_session) /\
  handles KClear (str "clear g") /\ str "clear g" <> str "clear" /\ C41_names = true.
Proof. split; [exact (bare_reached _ C38_lives)|]. split; [exact (kind_of_ok (str "clear g"))|]. split; [discriminate|vm_compute; reflexivity]. Qed.
Print Assumptions C41_clear_all.
Print Assumptions C41_clear_function.
Print Assumptions C41_clear_unknown.

(** ** C52 *)
Theorem C52_one_command : forall l, exists! k, handles k l.
Proof. intros l. destruct (handles_exists l) as [k H]. exists k. split; auto. intros k' H'. eapply handles_unique; eauto. Qed.
Theorem C52_dispatch : forall L fuel strtod files d s l k, handles k l ->
  exec_command L fuel strtod files (S d) s l =
  match k with
  | KHelp => Done (Ok (Did s [SHelp] true))
  | KTable => cmd_table_exec L fuel strtod s l
  | KDefinition => cmd_definition_exec L fuel strtod s l
  | KClear => cmd_clear_exec s l
  | KLoad => cmd_load_exec strtod files (process_input L fuel strtod files d) s l
  | KEvaluation => cmd_evaluation_exec L fuel strtod s l
  end.
Proof.
  intros L fuel sd files d s l k H. destruct k; [apply exec_help|apply exec_table|apply exec_definition|apply exec_clear| |apply exec_evaluation]; auto.
  inversion H; subst. cbn [exec_command]. rewrite (check_false _ _ help_spec), (check_false _ _ table_spec), (check_false _ _ definition_spec), (check_false _ _ clear_spec), (proj2 (load_spec l)); auto.
Qed.
(** Texts and their lines *)
Lemma getlines_line : forall l rest, ~ In LF l -> getlines (l ++ LF :: rest) = (l ++ [LF]) :: getlines rest.
Proof.
  induction l as [|c l IH]; intros rest N. { reflexivity. } cbn [app getlines]. destruct (ceqb c LF) eqn:E.
  - exfalso. apply N. left. unfold ceqb in E. apply Ascii.eqb_eq in E. auto.
  - rewrite IH by (intro; apply N; right; auto). reflexivity.
Qed.
Lemma getlines_text : forall ls, Forall text_line ls -> getlines (text ls) = map (fun l => l ++ [LF]) ls.
Proof.
  induction ls as [|l ls IH]; intros F; [reflexivity|]. inversion F; subst. unfold text. cbn [map List.concat]. fold (text ls). rewrite <- app_assoc. cbn [app].
  rewrite getlines_line by apply H1. rewrite IH; auto.
Qed.
Lemma until_nul_clean : forall l, ~ In NUL l -> until_nul l = l.
Proof.
  induction l as [|c l IH]; intros N; [reflexivity|]. cbn [until_nul]. destruct (ceqb c NUL) eqn:E.
  - exfalso. apply N. left. unfold ceqb in E. apply Ascii.eqb_eq in E. auto.
  - rewrite IH; auto. intro; apply N; right; auto.
Qed.
Lemma input_line_text : forall l, text_line l -> input_line (l ++ [LF]) = Ok l.
Proof.
  intros l [N1 N2]. unfold input_line. rewrite until_nul_clean.
  - rewrite app_length. cbn [List.length]. destruct (Nat.eqb_spec (List.length l + 1) 0); [lia|]. replace (List.length l + 1 - 1) with (List.length l) by lia.
    rewrite firstn_app, Nat.sub_diag, firstn_all. cbn [firstn]. rewrite app_nil_r. reflexivity.
  - intro I. apply in_app_or in I. destruct I as [I|[I|[]]]; [auto|discriminate I].
Qed.
Lemma ignored_spec : forall l, ignored l = true <-> skipped l.
Proof.
  intros [|c r]; cbn [ignored]; unfold skipped. { split; auto. } unfold ceqb. rewrite Ascii.eqb_eq. split; [intros ->; right; eauto|]. intros [H|(r' & H)]; [discriminate H|]. injection H. auto.
Qed.
Lemma quit_spec : forall l, streqb l QUIT_COMMAND = true <-> l = str "quit".
Proof. intros l. rewrite streqb_eq. split; auto. Qed.
Lemma quit_not_skipped : ~ skipped (str "quit").
Proof. intro H. apply ignored_spec in H. discriminate H. Qed.
(** All lines of a text are executed, in order; empty lines and comments are not. *)
Lemma lines_typed : forall exec ls s s' o b ok, Forall text_line ls ->
  process_lines exec s (map (fun l => l ++ [LF]) ls) ok = Done (Ok (Did s' o b)) <-> exists b0, typed exec s ls s' o b0 /\ b = ok && b0.
Proof.
  intros exec. induction ls as [|l ls IH]; intros s s' o b ok F; cbn [map process_lines].
  - split. { intro E. injection E as <- <- <-. exists true. split; [constructor|]. rewrite andb_true_r. auto. }
    intros (b0 & T & ->). inversion T; subst. rewrite andb_true_r. reflexivity.
  - inversion F as [|x y Hl Fl]; subst. rewrite (input_line_text l Hl). cbn [of_res sbind]. destruct (streqb l QUIT_COMMAND) eqn:Q.
    { apply quit_spec in Q. subst l. split; [discriminate|]. intros (b0 & T & _). inversion T; subst; [exfalso; apply quit_not_skipped; auto|contradiction]. }
    assert (NQ : l <> str "quit") by (intro; apply quit_spec in H; congruence).
    destruct (ignored l) eqn:G.
    { apply ignored_spec in G. rewrite IH by auto. split; intros (b0 & T & ->); exists b0; split; auto; [constructor; auto|]. inversion T; subst; auto. contradiction. }
    assert (NS : ~ skipped l) by (intro; apply ignored_spec in H; congruence).
    destruct (exec s l) as [[[s1 o1 b1|o1 b1]| |]|] eqn:E; cbn [sbind]; try (split; [discriminate|]; intros (b0 & T & _); inversion T; subst; [contradiction|congruence]).
    split.
    + intro H. destruct (process_lines exec s1 (map (fun l => l ++ [LF]) ls) (ok && b1)) as [[[s2 o2 b2|o2 b2]| |]|] eqn:P; cbn [sbind] in H; try discriminate H. injection H as <- <- <-.
      apply IH in P; auto. destruct P as (b0 & T & ->). exists (b1 && b0). split; [eapply ty_exec; eauto|]. rewrite andb_assoc. reflexivity.
    + intros (b0 & T & ->). inversion T as [|? ? ? ? ? ? Sk|? ? ? s3 o3 b3 ? o4 b4 N1 N2 E3 T3]; subst; [contradiction|]. rewrite E in E3. injection E3 as <- <- <-.
      assert (P : process_lines exec s1 (map (fun l => l ++ [LF]) ls) (ok && b1) = Done (Ok (Did s' o4 ((ok && b1) && b4)))) by (apply IH; eauto).
      rewrite P. cbn [sbind]. rewrite andb_assoc. reflexivity.
Qed.
Theorem C52_lines_in_order : forall L fuel strtod files d s ls s' o b, Forall text_line ls ->
  process_input L fuel strtod files d s (text ls) = Done (Ok (Did s' o b)) <-> typed (exec_command L fuel strtod files d) s ls s' o b.
Proof.
  intros L fuel sd files d s ls s' o b F. unfold process_input. rewrite getlines_text, lines_typed by auto. split; [intros (b0 & T & ->); exact T|eauto].
Qed.
(** quit ends the program: nothing after it is executed. A quit in a loaded script does the same. *)
Lemma lines_quit : forall exec ls s o b ok, Forall text_line ls ->
  process_lines exec s (map (fun l => l ++ [LF]) ls) ok = Done (Ok (Quit o b)) <->
  exists pre l post s1 o1 b1, ls = pre ++ l :: post /\ typed exec s pre s1 o1 b1 /\
    ((l = str "quit" /\ o = o1 /\ b = ok && b1) \/ (l <> str "quit" /\ ~ skipped l /\ exists o2, exec s1 l = Done (Ok (Quit o2 b)) /\ o = o1 ++ o2)).
Proof.
  intros exec. induction ls as [|l ls IH]; intros s o b ok F; cbn [map process_lines].
  - split; [discriminate|]. intros ([|p pre] & l & post & s1 & o1 & b1 & E & _); discriminate E.
  - inversion F as [|x y Hl Fl]; subst. rewrite (input_line_text l Hl). cbn [of_res sbind]. destruct (streqb l QUIT_COMMAND) eqn:Q.
    { apply quit_spec in Q. subst l. split.
      - intro E. injection E as <- <-. exists [], (str "quit"), ls, s, [], true. split; auto. split; [constructor|]. left. rewrite andb_true_r. auto.
      - intros ([|p pre] & l & post & s1 & o1 & b1 & E & T & D).
        + injection E as <- <-. inversion T; subst. destruct D as [(_ & -> & ->)|(N & _)]; [rewrite andb_true_r; reflexivity|contradiction].
        + injection E as <- _. exfalso. inversion T; subst; [apply quit_not_skipped; auto|contradiction]. }
    assert (NQ : l <> str "quit") by (intro; apply quit_spec in H; congruence).
    destruct (ignored l) eqn:G.
    { apply ignored_spec in G. rewrite IH by auto. split.
      - intros (pre & l' & post & s1 & o1 & b1 & -> & T & D). exists (l :: pre), l', post, s1, o1, b1. split; auto. split; auto. constructor; auto.
      - intros ([|p pre] & l' & post & s1 & o1 & b1 & E & T & D).
        + injection E as <- <-. exfalso. destruct D as [(N & _)|(_ & N & _)]; contradiction.
        + injection E as <- ->. inversion T; subst; [|contradiction]. exists pre, l', post, s1, o1, b1. auto. }
    assert (NS : ~ skipped l) by (intro; apply ignored_spec in H; congruence).
    assert (Other : (forall s1 o1 b1, exec s l <> Done (Ok (Did s1 o1 b1))) -> (forall o1 b1, exec s l <> Done (Ok (Quit o1 b1))) ->
      ~ exists pre l0 post s1 o1 b1, l :: ls = pre ++ l0 :: post /\ typed exec s pre s1 o1 b1 /\
        ((l0 = str "quit" /\ o = o1 /\ b = ok && b1) \/ (l0 <> str "quit" /\ ~ skipped l0 /\ exists o2, exec s1 l0 = Done (Ok (Quit o2 b)) /\ o = o1 ++ o2))).
    { intros X Y ([|p pre] & l' & post & s1 & o1 & b1 & E & T & D).
      - injection E as <- <-. inversion T; subst. destruct D as [(N & _)|(_ & _ & o2 & Z & _)]; [contradiction|]. eapply Y; eauto.
      - injection E as <- ->. inversion T; subst; [contradiction|]. eapply X; eauto. }
    destruct (exec s l) as [[[s1 o1 b1|o1 b1]| |]|] eqn:E; cbn [sbind]; try (split; [discriminate|]; intro H; exfalso; revert H; apply Other; congruence).
    + split.
      * intro H. destruct (process_lines exec s1 (map (fun l => l ++ [LF]) ls) (ok && b1)) as [[[s2 o2 b2|o2 b2]| |]|] eqn:P; cbn [sbind] in H; try discriminate H. injection H as <- <-.
        apply IH in P; auto. destruct P as (pre & l' & post & s3 & o3 & b3 & -> & T & D). exists (l :: pre), l', post, s3, (o1 ++ o3), (b1 && b3). split; auto. split; [eapply ty_exec; eauto|].
        destruct D as [(Ql & -> & ->)|(N & K & o4 & E4 & ->)]; [left; rewrite andb_assoc; auto|]. right. split; auto. split; auto. exists o4. split; auto. rewrite app_assoc. auto.
      * intros ([|p pre] & l' & post & s3 & o3 & b3 & E3 & T & D).
        { injection E3 as <- <-. inversion T; subst. exfalso. destruct D as [(N & _)|(_ & _ & o2 & Z & _)]; [contradiction|]. rewrite E in Z. discriminate Z. }
        injection E3 as <- ->. inversion T as [|? ? ? ? ? ? Sk|? ? ? s4 o4 b4 ? o5 b5 N1 N2 E4 T4]; subst; [contradiction|]. rewrite E in E4. injection E4 as <- <- <-.
        assert (P : exists o6, o = o1 ++ o6 /\ process_lines exec s1 (map (fun l => l ++ [LF]) (pre ++ l' :: post)) (ok && b1) = Done (Ok (Quit o6 b))).
        { destruct D as [(Ql & -> & ->)|(N & K & o7 & E7 & ->)].
          - exists o5. split; auto. apply IH; auto. exists pre, l', post, s3, o5, b5. split; auto. split; auto. left. rewrite andb_assoc. auto.
          - exists (o5 ++ o7). rewrite app_assoc. split; auto. apply IH; auto. exists pre, l', post, s3, o5, b5. split; auto. split; auto. right. split; auto. split; auto. exists o7. auto. }
        destruct P as (o6 & -> & P). rewrite P. reflexivity.
    + split.
      * intro H. injection H as <- <-. exists [], l, ls, s, [], true. split; auto. split; [constructor|]. right. split; auto. split; auto. exists o1. auto.
      * intros ([|p pre] & l' & post & s3 & o3 & b3 & E3 & T & D).
        { injection E3 as <- <-. inversion T; subst. destruct D as [(N & _)|(_ & _ & o2 & Z & ->)]; [contradiction|]. rewrite E in Z. injection Z as <- <-. reflexivity. }
        injection E3 as <- ->. inversion T; subst; [contradiction|]. congruence.
Qed.
Theorem C52_quit : forall L fuel strtod files d s ls o b, Forall text_line ls ->
  process_input L fuel strtod files d s (text ls) = Done (Ok (Quit o b)) <->
  exists pre l post s1 o1 b1, ls = pre ++ l :: post /\ typed (exec_command L fuel strtod files d) s pre s1 o1 b1 /\
    ((l = str "quit" /\ o = o1 /\ b = b1) \/
     (l <> str "quit" /\ ~ skipped l /\ exists o2, exec_command L fuel strtod files d s1 l = Done (Ok (Quit o2 b)) /\ o = o1 ++ o2)).
Proof. intros L fuel sd files d s ls o b F. unfold process_input. rewrite getlines_text, lines_quit by auto. reflexivity. Qed.

(** ** C56 *)
(** A text whose last line has no newline *)
Definition text_open (ls : list cstr) (last : cstr) : list ascii := text ls ++ last.
Theorem C56_scripts_partial : forall L fuel strtod files d s path ls s' o b, handles KLoad (str "load " ++ path) -> ~ starts_with (str "simplification ") path ->
  files path = Some (text ls) -> Forall text_line ls ->
  exec_command L fuel strtod files (S d) s (str "load " ++ path) = Done (Ok (Did s' o b)) <->
  b = true /\ exists b0, typed (exec_command L fuel strtod files d) s ls s' o b0.
Proof.
  intros L fuel sd files d s path ls s' o b H N E F. rewrite (C52_dispatch _ _ _ _ _ _ _ _ H). unfold cmd_load_exec.
  assert (NS : begins_with LOAD_SIMPLIFICATION (str "load " ++ path) = false).
  { destruct (begins_with LOAD_SIMPLIFICATION (str "load " ++ path)) eqn:Bw; auto. exfalso. apply N. apply begins_with_spec in Bw. destruct Bw as [r Er]. exists r. cbn in Er. injection Er as ->. reflexivity. }
  rewrite NS. change (skipn (List.length LOAD_COMMAND) (str "load " ++ path)) with path. rewrite E.
  pose proof (C52_lines_in_order L fuel sd files d s ls) as T.
  destruct (process_input L fuel sd files d s (text ls)) as [[[s1 o1 b1|o1 b1]| |]|] eqn:P; cbn [sbind].
  - split.
    + intro X. injection X as <- <- <-. split; auto. exists b1. apply T; auto.
    + intros (-> & b0 & X). apply T in X; auto. injection X as -> -> _. reflexivity.
  - split; [discriminate|]. intros (_ & b0 & X). apply T in X; auto. congruence.
  - split; [discriminate|]. intros (_ & b0 & X). apply T in X; auto. congruence.
  - split; [discriminate|]. intros (_ & b0 & X). apply T in X; auto. congruence.
  - split; [discriminate|]. intros (_ & b0 & X). apply T in X; auto. congruence.
Qed.
(** The file consists of the lines [ls]; the last one need not end with a newline. *)
Definition file_of (ls : list cstr) (content : list ascii) : Prop :=
  content = text ls \/ exists ls0 last, ls = ls0 ++ [last] /\ last <> [] /\ content = text ls0 ++ last.
(** The claim *)
Definition load_executes L fuel strtod files d s path ls : Prop :=
  forall s' o b, exec_command L fuel strtod files (S d) s (str "load " ++ path) = Done (Ok (Did s' o b)) <->
    b = true /\ exists b0, typed (exec_command L fuel strtod files d) s ls s' o b0.
(** The file "1+22" without newline: 1+2 is evaluated. *)
Definition open_file : cstr -> option (list ascii) := fun p => if streqb p (str "script") then Some (str "1+22") else None.
Definition C56_bare : option (session * list fundef) := tracked no_libm 20 open_file true (str "rules") [].
Lemma C56_lives : lives C56_bare = true. Proof. vm_compute. reflexivity. Qed.
Lemma C56_reached : session_of no_libm 20 strtod open_file any_function (state C56_bare) (functions C56_bare).
Proof.
  assert (S : sound no_libm 20 open_file true C56_bare) by apply tracked_sound. pose proof C56_lives as H. revert H S. generalize C56_bare. intros [[s d]|] H S; [|discriminate H]. exact (S s d eq_refl).
Qed.
Definition shows (v : double) (r : step cmdres) : bool :=
  match r with Done (Ok (Did _ [SResult (NConst v' _)] true)) => same_double v v' | _ => false end.
Notation in_open d l := (exec_command no_libm 20 strtod open_file d (state C56_bare) (str l)).
Lemma C56_loaded : shows (of_Z 3) (in_open 2 "load script") = true. Proof. vm_compute. reflexivity. Qed.
Lemma C56_typed : shows (of_Z 23) (in_open 1 "1+22") = true. Proof. vm_compute. reflexivity. Qed.
Lemma three_more : of_Z 3 <> of_Z 23. Proof. vm_compute. discriminate. Qed.
Lemma load_differs : forall (exec : session -> cstr -> step cmdres) s r l v v', (l = str "quit" -> False) -> (skipped l -> False) ->
  (forall s' o b, r = Done (Ok (Did s' o b)) <-> b = true /\ exists b0, typed exec s [l] s' o b0) ->
  shows v r = true -> shows v' (exec s l) = true -> v = v'.
Proof.
  assert (X : forall v r, shows v r = true -> exists s' j, r = Done (Ok (Did s' [SResult (NConst v j)] true))).
  { intros v r E. unfold shows in E. destruct r as [[[s1 [|sh [|? ?]] bb|]| |]|]; try discriminate E; destruct sh as [|[v1 j1| |]| | |]; try discriminate E; destruct bb; try discriminate E.
    apply same_double_ok in E. subst v1. eauto. }
  intros exec s r l v v' Q K H A B. apply X in A, B. destruct A as (s1 & j1 & A). destruct B as (s2 & j2 & B).
  apply H in A. destruct A as (_ & b0 & T). inversion T as [|? ? ? ? ? ? Sk|? ? ? s3 o3 b3 ? o4 b4 N1 N2 E T2 E1 E2 E3 E4]; subst; [contradiction|]. inversion T2; subst.
  rewrite E in B. injection B as -> -> ->. cbn in E4. congruence.
Qed.
Theorem C56_scripts_refuted :
  ~ (forall L fuel strtod files d s defs path ls content, session_of L fuel strtod files any_function s defs ->
     handles KLoad (str "load " ++ path) -> ~ starts_with (str "simplification ") path ->
     files path = Some content -> file_of ls content -> Forall text_line ls -> load_executes L fuel strtod files d s path ls).
Proof.
  intros H. apply three_more. refine (load_differs (exec_command no_libm 20 strtod open_file 1) (state C56_bare) (in_open 2 "load script") (str "1+22") _ _ _ _ _ C56_loaded C56_typed).
  - discriminate.
  - intros [X|[r X]]; discriminate X.
  - refine (H no_libm 20 strtod open_file 1 (state C56_bare) (functions C56_bare) (str "script") [str "1+22"] (str "1+22") C56_reached (kind_of_ok (str "load script")) _ eq_refl _ _).
    + intros [r X]. discriminate X.
    + right. exists [], (str "1+22"). split; auto. split; [discriminate|auto].
    + constructor; [|constructor]. split; cbn; intuition discriminate.
Qed.
Definition script_files : cstr -> option (list ascii) := fun p => if streqb p (str "script") then Some (text [str "# functions"; []; str "f(x)=x*x"; str "f(3)+1"]) else None.
Definition C56_script : option (session * list fundef) := tracked no_libm 20 script_files true (str "rules") [].
Example C56_case : lives C56_script = true /\ shows (of_Z 10) (exec_command no_libm 20 strtod script_files 2 (state C56_script) (str "load script")) = true /\
  handles KLoad (str "load script") /\ ~ starts_with (str "simplification ") (str "script") /\
  script_files (str "script") = Some (text [str "# functions"; []; str "f(x)=x*x"; str "f(3)+1"]) /\ Forall text_line [str "# functions"; []; str "f(x)=x*x"; str "f(3)+1"].
Proof.
  split; [vm_compute; reflexivity|]. split; [vm_compute; reflexivity|]. split; [exact (kind_of_ok (str "load script"))|]. split; [intros [r X]; discriminate X|]. split; [reflexivity|].
  repeat constructor; cbn; intuition discriminate.
Qed.
Example C52_case : exists s1 o1 b1, typed (exec_command no_libm 20 strtod no_files 1) (state C38_session) [str "# functions"; []; str "k(x)=x*x"] s1 o1 b1 /\
  Forall text_line [str "# functions"; []; str "k(x)=x*x"; str "quit"; str "1"].
Proof.
  destruct (flag_did (run_in C38_session "k(x)=x*x") true) as (s' & o & E); [vm_compute; reflexivity|].
  exists s', (o ++ []), (true && true). split.
  - apply ty_skip; [right; eexists; reflexivity|]. apply ty_skip; [left; reflexivity|]. eapply ty_exec; [discriminate|intros [X|[r X]]; discriminate X|exact E|constructor].
  - repeat constructor; cbn; intuition discriminate.
Qed.
Print Assumptions C52_one_command.
Print Assumptions C52_dispatch.
Print Assumptions C52_lines_in_order.
Print Assumptions C52_quit.
Print Assumptions C56_scripts_refuted.
Print Assumptions C56_scripts_partial.

(** ** C65 *)
(** load does not report that commands of the script failed. *)
Lemma failed_reported : forall (exec : session -> cstr -> step cmdres) s r l s1 o1, (l = str "quit" -> False) -> (skipped l -> False) -> exec s l = Done (Ok (Did s1 o1 false)) ->
  (forall s' o b, r = Done (Ok (Did s' o b)) -> typed exec s [l] s' o b) -> (exists s' o, r = Done (Ok (Did s' o true))) -> False.
Proof.
  intros exec s r l s1 o1 Q K E H (s' & o & R). apply H in R. inversion R as [|? ? ? ? ? ? Sk|? ? ? s2 o2 b2 ? o3 b3 N1 N2 E2 T2]; subst; [contradiction|].
  rewrite E in E2. injection E2 as <- <- <-. discriminate.
Qed.
Definition bad_script : cstr -> option (list ascii) := fun p => if streqb p (str "script") then Some (text [str "1+"]) else None.
Definition C65_bare : option (session * list fundef) := tracked no_libm 20 bad_script true (str "rules") [].
Lemma C65_lives : lives C65_bare = true. Proof. vm_compute. reflexivity. Qed.
Lemma C65_reached : session_of no_libm 20 strtod bad_script any_function (state C65_bare) (functions C65_bare).
Proof.
  assert (S : sound no_libm 20 bad_script true C65_bare) by apply tracked_sound. pose proof C65_lives as H. revert H S. generalize C65_bare. intros [[s d]|] H S; [|discriminate H]. exact (S s d eq_refl).
Qed.
Notation in_bad d l := (exec_command no_libm 20 strtod bad_script d (state C65_bare) (str l)).
Lemma C65_line : flag (in_bad 1 "1+") = Some false. Proof. vm_compute. reflexivity. Qed.
Lemma C65_load : flag (in_bad 2 "load script") = Some true. Proof. vm_compute. reflexivity. Qed.
Theorem C65_script_errors_refuted :
  ~ (forall L fuel strtod files d s defs path ls s' o b, session_of L fuel strtod files any_function s defs ->
     handles KLoad (str "load " ++ path) -> ~ starts_with (str "simplification ") path -> files path = Some (text ls) -> Forall text_line ls ->
     exec_command L fuel strtod files (S d) s (str "load " ++ path) = Done (Ok (Did s' o b)) -> typed (exec_command L fuel strtod files d) s ls s' o b).
Proof.
  intros H. destruct (flag_did (in_bad 1 "1+") false C65_line) as (s1 & o1 & E).
  refine (failed_reported (exec_command no_libm 20 strtod bad_script 1) (state C65_bare) (in_bad 2 "load script") (str "1+") s1 o1 _ _ E _ (flag_did _ true C65_load)).
  - discriminate.
  - intros [X|[r X]]; discriminate X.
  - intros s' o b X. refine (H no_libm 20 strtod bad_script 1 (state C65_bare) (functions C65_bare) (str "script") [str "1+"] s' o b C65_reached (kind_of_ok (str "load script")) _ eq_refl _ X).
    + intros [r Y]. discriminate Y.
    + constructor; [|constructor]. split; cbn; intuition discriminate.
Qed.
(** A script that loads itself does not end, whatever the depth of scripts allowed. *)
Theorem C65_script_loads_itself : forall L fuel strtod files s path d, handles KLoad (str "load " ++ path) -> ~ starts_with (str "simplification ") path -> text_line path ->
  files path = Some (text [str "load " ++ path]) -> exec_command L fuel strtod files d s (str "load " ++ path) = Forever.
Proof.
  intros L fuel sd files s path d H N Hp F. revert s. induction d as [|d IH]; intros s; [reflexivity|].
  rewrite (C52_dispatch _ _ _ _ _ _ _ _ H). unfold cmd_load_exec.
  assert (NS : begins_with LOAD_SIMPLIFICATION (str "load " ++ path) = false).
  { destruct (begins_with LOAD_SIMPLIFICATION (str "load " ++ path)) eqn:Bw; auto. exfalso. apply N. apply begins_with_spec in Bw. destruct Bw as [r Er]. exists r. cbn in Er. injection Er as ->. reflexivity. }
  rewrite NS. change (skipn (List.length LOAD_COMMAND) (str "load " ++ path)) with path. rewrite F. unfold process_input.
  assert (T : text_line (str "load " ++ path)). { destruct Hp as [A B]. split; intro X; apply in_app_or in X; destruct X as [X|X]; [|auto| |auto]; cbn in X; intuition discriminate. }
  rewrite getlines_text by (constructor; auto). cbn [map process_lines]. rewrite (input_line_text _ T). cbn [of_res sbind].
  destruct (streqb (str "load " ++ path) QUIT_COMMAND) eqn:Q. { apply quit_spec in Q. discriminate Q. }
  destruct (ignored (str "load " ++ path)) eqn:G. { apply ignored_spec in G. destruct G as [X|[r X]]; discriminate X. }
  rewrite IH. reflexivity.
Qed.
Example C65_case : exists files, files (str "me") = Some (text [str "load " ++ str "me"]) /\ handles KLoad (str "load " ++ str "me") /\ ~ starts_with (str "simplification ") (str "me") /\ text_line (str "me").
Proof. exists (fun _ => Some (text [str "load me"])). split; [reflexivity|]. split; [exact (kind_of_ok (str "load me"))|]. split; [intros [r X]; discriminate X|]. split; cbn; intuition discriminate. Qed.
Print Assumptions C65_script_errors_refuted.
Print Assumptions C65_script_loads_itself.
