(** Properties C37 and C59: rules and rule sets given as text. *)
From Coq Require Import List Ascii String NArith ZArith Bool Lia Arith.
From Coq.Floats Require Import SpecFloat.
From Verif Require Import M_Base M_StringUtil M_Tree M_Context M_Parser M_Match M_RuleParsing M_ArithCtx M_Strtod S_Util S_Tree S_Match S_Rules L_StringUtil L_ArithCtx L_MatchTop L_MatchRule L_RuleParsing.
Import ListNotations.
Open Scope string_scope.
Open Scope list_scope.
Open Scope nat_scope.
Open Scope res_scope.

(** ** C37 *)
(** The claim: the text is accepted and its n constraints are these, then every application of the rule
    is at a place where all of them hold. [limit] is a bound on n. *)
Definition C37_claim (limit : nat -> Prop) : Prop :=
  forall strtod c s L R cs p a ds r ck t t', no_nul s -> rule_reads s L R cs ->
    denotes strtod c L p -> denotes strtod c R a -> Forall2 (denotes strtod c) cs ds -> limit (List.length cs) ->
    var_names p <> [] -> covered p ds -> parse_rule strtod c s = Ok (Some r) ->
    machine_sized t -> apply_rule ck t r = Ok (Some t') ->
    exists q sub new v, subtree t q = Some sub /\ fits v p /\ Forall2 alike (inst v p) [sub] /\ Forall (holds ck v) ds
      /\ inst v (located (location sub) a) = [new] /\ replaced q sub new t t'.

Ltac cut_by n := match goal with |- cut_at_first ?d ?s _ _ => exact (proj2 (strstr_some s d n eq_refl)) end.
Ltac absent := match goal with |- does_not_occur ?d ?s => apply strstr_none; vm_compute; reflexivity end.

(** Four constraints, the last one is lost: the rule is applied to sin(2) although cos(2) is refused. *)
Definition C37_text : cstr := str "sin(x)->x WHERE x ; x ; x ; cos(x)".
Definition C37_checker (n : node) : res bool := match n with NOp _ _ _ => Ok false | _ => Ok true end.
Definition C37_subject : node := match parse_easy strtod the_arith_ctx (str "sin(2)") with Ok (Some t) => t | _ => NVar [] 0 0 end.
Lemma C37_reads : rule_reads C37_text (str "sin(x)") (str "x") [str "x"; str "x"; str "x"; str "cos(x)"].
Proof.
  apply (rr_after _ _ _ (str "x ; x ; x ; cos(x)")); [cut_by 6|cut_by 9|].
  eapply pc_more; [cut_by 1|]. eapply pc_more; [cut_by 1|]. eapply pc_more; [cut_by 1|]. apply pc_last. absent.
Qed.
Definition C37_run : res (option (bool * bool)) :=
  l <- parse_easy strtod the_arith_ctx (str "sin(x)") ;;
  d <- parse_easy strtod the_arith_ctx (str "cos(x)") ;;
  x <- parse_easy strtod the_arith_ctx (str "x") ;;
  r <- parse_rule strtod the_arith_ctx C37_text ;;
  match l, d, x, r with
  | Some (NOp _ [NVar lx _ _] _), Some (NOp _ [NVar dx _ _] _), Some (NVar rx _ _), Some r =>
    res <- apply_rule C37_checker C37_subject r ;;
    Ok (Some (match res with Some _ => true | None => false end, streqb lx (str "x") && streqb dx (str "x") && streqb rx (str "x")))
  | _, _, _, _ => Ok None
  end.
Lemma streqb_true : forall a b, streqb a b = true -> a = b.
Proof.
  induction a as [|x a IH]; intros [|y b] H; simpl in H; try discriminate H; auto. apply andb_true_iff in H. destruct H as [H1 H2].
  apply Ascii.eqb_eq in H1. f_equal; auto.
Qed.
Lemma C37_core : forall strtod c s L R cx l x d r ck t t', C37_claim (fun _ => True) -> no_nul s -> rule_reads s L R [R; R; R; cx] ->
  parse_easy strtod c L = Ok (Some l) -> parse_easy strtod c R = Ok (Some x) -> parse_easy strtod c cx = Ok (Some d) ->
  parse_rule strtod c s = Ok (Some r) -> machine_sized t -> apply_rule ck t r = Ok (Some t') -> var_names l <> [] -> covered l [x; x; x; d] ->
  exists v, holds ck v d.
Proof.
  intros strtod c s L R cx l x d r ck t t' H Nn Rd E1 E2 E3 E4 MS E5 NE Cov.
  destruct (H strtod c s _ _ _ l x [x; x; x; d] r ck t t' Nn Rd E1 E2) as (q & sub & new & v & _ & _ & _ & F & _); auto.
  exists v. inversion F as [|? ? _ F1]; subst. inversion F1 as [|? ? _ F2]; subst. inversion F2 as [|? ? _ F3]; subst. inversion F3; subst; auto.
Qed.
Theorem C37_all_constraints_hold_refuted : ~ C37_claim (fun _ => True).
Proof.
  intros H. assert (K : C37_run = Ok (Some (true, true))) by (vm_compute; reflexivity). assert (MS : machine_sized C37_subject) by (vm_compute; repeat split).
  unfold C37_run in K.
  assert (Nn : no_nul C37_text) by (unfold no_nul; intros I; vm_compute in I; repeat (destruct I as [I|I]; [discriminate I|]); exact I).
  assert (H' : forall l x d r t', parse_easy strtod the_arith_ctx (str "sin(x)") = Ok (Some l) -> parse_easy strtod the_arith_ctx (str "x") = Ok (Some x) ->
    parse_easy strtod the_arith_ctx (str "cos(x)") = Ok (Some d) -> parse_rule strtod the_arith_ctx C37_text = Ok (Some r) ->
    apply_rule C37_checker C37_subject r = Ok (Some t') -> var_names l <> [] -> covered l [x; x; x; d] -> exists v, holds C37_checker v d).
  { intros l x d r t' E1 E2 E3 E4 E5 NE Cov. exact (C37_core _ _ _ _ _ _ _ _ _ _ _ _ _ H Nn C37_reads E1 E2 E3 E4 MS E5 NE Cov). }
  clear H. revert H' K. generalize (parse_rule strtod the_arith_ctx C37_text). intros pr.
  generalize (parse_easy strtod the_arith_ctx (str "cos(x)")) as pd. generalize (parse_easy strtod the_arith_ctx (str "sin(x)")) as pl.
  generalize (parse_easy strtod the_arith_ctx (str "x")) as px. revert MS. generalize C37_subject. intros t MS.
  intros px pl pd H K.
  destruct pl as [l| |]; cbn [rbind] in K; try discriminate K. destruct pd as [d| |]; cbn [rbind] in K; try discriminate K.
  destruct px as [x| |]; cbn [rbind] in K; try discriminate K. destruct pr as [r| |]; cbn [rbind] in K; try discriminate K.
  destruct l as [[|? ? ?|lo [|[|lx ? ?|] [|? ?]] ?]|]; try discriminate K.
  destruct d as [[|? ? ?|do' [|[|dx di dt|] [|? ?]] dt']|]; try discriminate K.
  destruct x as [[|rx ri rt|]|]; try discriminate K. destruct r as [r|]; try discriminate K.
  destruct (apply_rule C37_checker t r) as [[t'|]| |] eqn:A; cbn [rbind] in K; try discriminate K. injection K as K.
  apply andb_true_iff in K. destruct K as [K K3]. apply andb_true_iff in K. destruct K as [K1 K2]. apply streqb_true in K1, K2, K3. subst.
  destruct (H _ _ _ _ _ eq_refl eq_refl eq_refl eq_refl A) as (v & u & Eu & Cu).
  - discriminate.
  - intros c y [<-|[<-|[<-|[<-|[]]]]] Iy; simpl in *; tauto.
  - cbn [inst] in Eu. injection Eu as <-. discriminate Cu.
Qed.

Theorem C37_up_to_three_constraints_partial : C37_claim (fun n => n <= 3).
Proof.
  intros strtod c s L R cs p a ds r ck t t' Nn Rd DL DR DC Lim NE Cov PR MS E.
  rewrite (parse_rule_reads strtod c s L R cs Nn Rd) in PR. apply build_some in PR.
  destruct PR as (p' & a' & ds' & pat & DL' & DR' & DC' & HP & HR). unfold denotes in *. rewrite firstn_all2 in DC' by lia.
  assert (p' = p) by congruence. assert (a' = a) by congruence. subst.
  assert (ds' = ds). { clear - DC DC'. revert ds' DC'. induction DC; intros ds' DC'; inversion DC'; subst; auto. f_equal; [congruence|eauto]. }
  subst ds'. apply (apply_rule_spec ck p ds pat a r HP HR t _ MS Cov) in E.
  destruct E as (l1 & q & l2 & sub & v & new & Q & Ft & A & Hd & N & Rp & _).
  exists q, sub, new, v. repeat split; auto. clear - Rp. induction Rp; [reflexivity|]. subst. cbn [subtree].
  rewrite nth_error_app2, Nat.sub_diag by lia. cbn [nth_error]. exact IHRp.
Qed.
(** What is accepted: the parts are expressions, there are at most ten variables, and the replacement has
    no variable of its own. *)
Theorem C37_accepted : forall strtod c s L R cs p a ds, no_nul s -> rule_reads s L R cs ->
  denotes strtod c L p -> denotes strtod c R a -> Forall2 (denotes strtod c) cs ds -> List.length cs <= 3 ->
  List.length (firsts (var_names p)) <= 10 -> incl (var_names a) (var_names p) ->
  exists r, parse_rule strtod c s = Ok (Some r).
Proof.
  intros strtod c s L R cs p a ds Nn Rd DL DR DC Lim L10 I.
  destruct (pattern_accepted p ds) as [pat HP]; auto. { rewrite <- (F2_len _ _ _ _ _ DC). auto. }
  destruct (get_rule_spec p ds pat a HP) as [A _].
  exists (mkRule pat (with_ids (L_Tree.pos_in (firsts (var_names p))) a)).
  rewrite (parse_rule_reads strtod c s L R cs Nn Rd). apply build_some. exists p, a, ds, pat.
  rewrite firstn_all2 by lia. repeat split; auto.
Qed.
Theorem C37_accepted_only_if : forall strtod c s r, no_nul s -> parse_rule strtod c s = Ok (Some r) ->
  exists L R cs p a, rule_reads s L R cs /\ denotes strtod c L p /\ denotes strtod c R a
    /\ Forall (fun x => exists d, denotes strtod c x d) (firstn 3 cs)
    /\ List.length (firsts (var_names p)) <= 10 /\ incl (var_names a) (var_names p).
Proof.
  intros strtod c s r Nn PR. destruct (reads_exist s (parse_rule_arrow strtod c s r PR)) as (L & R & cs & Rd).
  rewrite (parse_rule_reads strtod c s L R cs Nn Rd) in PR. apply build_some in PR.
  destruct PR as (p & a & ds & pat & DL & DR & DC & HP & HR). exists L, R, cs, p, a. repeat split; auto.
  - clear - DC. induction DC; constructor; eauto.
  - apply (get_pattern_spec _ _ _ HP).
  - eapply rule_vars; eauto.
Qed.
(** A text has only one reading. *)
Lemma cut_unique : forall d s a b a' b', cut_at_first d s a b -> cut_at_first d s a' b' -> a = a' /\ b = b'.
Proof.
  intros d s a b a' b' [E M] [E' M']. pose proof (M _ _ E'). pose proof (M' _ _ E).
  assert (List.length a = List.length a') as Le by lia. rewrite E in E'. clear - E' Le. revert a' Le E'. induction a as [|x a IH]; intros [|y a'] Le E'; try discriminate Le.
  - split; auto. cbn [app] in E'. eapply app_inv_head. exact E'.
  - injection E' as -> E'. injection Le as Le. destruct (IH a' Le E') as [-> ->]. auto.
Qed.
Lemma pieces_unique : forall d s ps, pieces d s ps -> forall qs, pieces d s qs -> ps = qs.
Proof.
  intros d s ps H. induction H as [s N|s a b ps K P IH]; intros qs Q; inversion Q as [s' N'|s' a' b' qs' K' P']; subst; auto.
  - exfalso. eapply N. apply (proj1 K').
  - exfalso. eapply N'. apply (proj1 K).
  - destruct (cut_unique _ _ _ _ _ _ K K') as [-> ->]. f_equal. auto.
Qed.
Theorem C37_one_reading : forall s L R cs L' R' cs', rule_reads s L R cs -> rule_reads s L' R' cs' -> L = L' /\ R = R' /\ cs = cs'.
Proof.
  intros s L R cs L' R' cs' H H'.
  inversion H as [L0 R0 NW A|L0 R0 C cs0 A W P|L0 R0 C cs0 A W P]; subst; inversion H' as [L1 R1 NW' A'|L1 R1 C' cs1 A' W' P'|L1 R1 C' cs1 A' W' P']; subst.
  - destruct (cut_unique _ _ _ _ _ _ A A') as [-> ->]. auto.
  - exfalso. eapply NW. apply (proj1 W').
  - exfalso. eapply NW. apply (proj1 W').
  - exfalso. eapply NW'. apply (proj1 W).
  - destruct (cut_unique _ _ _ _ _ _ A A') as [-> E]. destruct (cut_unique _ _ _ _ _ _ W W') as [E1 ->].
    apply app_inv_head in E1. injection E1 as ->. rewrite (pieces_unique _ _ _ P _ P'). auto.
  - destruct (cut_unique _ _ _ _ _ _ A A') as [-> E]. destruct (cut_unique _ _ _ _ _ _ W W') as [E1 _].
    exfalso. apply (f_equal (@List.length ascii)) in E1. rewrite !app_length in E1. simpl in E1. lia.
  - exfalso. eapply NW'. apply (proj1 W).
  - destruct (cut_unique _ _ _ _ _ _ A A') as [E0 E]. destruct (cut_unique _ _ _ _ _ _ W W') as [E1 _].
    exfalso. apply (f_equal (@List.length ascii)) in E1. apply (f_equal (@List.length ascii)) in E0. rewrite !app_length in E0, E1. simpl in E0, E1. lia.
  - destruct (cut_unique _ _ _ _ _ _ A A') as [E0 ->]. destruct (cut_unique _ _ _ _ _ _ W W') as [-> E1].
    apply app_inv_head in E0. apply app_inv_head in E0. subst. rewrite (pieces_unique _ _ _ P _ P'). auto.
Qed.
(** A rule with two constraints: applied only where both hold *)
Definition C37_two : cstr := str "sin(x) -> cos(x) WHERE x ; -x".
Example C37_case : rule_reads C37_two (str "sin(x) ") (str " cos(x)") [str "x"; str "-x"]
  /\ match parse_rule strtod the_arith_ctx C37_two with
     | Ok (Some r) => apply_rule C37_checker C37_subject r = Ok None
       /\ (exists t', apply_rule (fun _ => Ok true) C37_subject r = Ok (Some t'))
     | _ => False
     end /\ machine_sized C37_subject.
Proof.
  split; [|vm_compute; repeat split; eauto].
  apply (rr_after _ _ _ (str "x ; -x")); [cut_by 7|cut_by 16|]. eapply pc_more; [cut_by 1|]. apply pc_last. absent.
Qed.
Print Assumptions C37_all_constraints_hold_refuted.
Print Assumptions C37_up_to_three_constraints_partial.
Print Assumptions C37_accepted.
Print Assumptions C37_accepted_only_if.
Print Assumptions C37_one_reading.

(** ** C59 *)
(** Every section's rules are delivered in order, and sections beyond the last rule set are ignored; in
    particular nothing is written outside the rule sets. *)
Definition C59_claim (ok : nat -> list section -> Prop) : Prop :=
  forall strtod c n pre secs rss, Forall plain_line (pre ++ flat_map section_lines secs) ->
    Forall (fun l => ~ is_header l) pre -> Forall well_formed secs -> ok n secs ->
    Forall2 (fun (s : section) rs => Forall2 (parsed strtod c) (rule_texts (snd s)) rs) secs rss ->
    parse_rulesets_from_file strtod c (file_of (pre ++ flat_map section_lines secs)) (repeat [] n)
      = Ok (Some (firstn n (rss ++ repeat [] (n - List.length secs)), Nat.min n (List.length secs))).
(** Two headers too many *)
Theorem C59_rule_files_refuted : ~ C59_claim (fun _ _ => True).
Proof.
  intros H. destruct (parse_rule strtod the_arith_ctx (str "x->x")) as [[r|]| |] eqn:E; [|vm_compute in E; discriminate E..].
  specialize (H strtod the_arith_ctx 0 [] [(str "RULESET", []); (str "RULESET", [str "x->x"])] [[]; [r]]).
  assert (K : parse_rulesets_from_file strtod the_arith_ctx (file_of (flat_map section_lines [(str "RULESET", []); (str "RULESET", [str "x->x"])])) (repeat [] 0) = Ub)
    by (vm_compute; reflexivity).
  cbn [app] in H. rewrite K in H. clear K. assert (Hd : is_header (str "RULESET")) by (exists []; reflexivity).
  assert (Pl : forall x, existsb (fun y => Ascii.eqb y NUL || Ascii.eqb y (ascii_of_nat 10)) x = false -> plain_line x).
  { intros x Hx. split; intros I.
    - enough (existsb (fun y => Ascii.eqb y NUL || Ascii.eqb y (ascii_of_nat 10)) x = true) by congruence. apply existsb_exists. exists NUL. auto.
    - enough (existsb (fun y => Ascii.eqb y NUL || Ascii.eqb y (ascii_of_nat 10)) x = true) by congruence. apply existsb_exists. exists (ascii_of_nat 10). auto. }
  discriminate H.
  - repeat constructor; apply Pl; reflexivity.
  - constructor.
  - repeat constructor; cbn [fst snd]; auto. intros [y Hy]. vm_compute in Hy. discriminate Hy.
  - exact I.
  - constructor; [constructor|]. constructor; [|constructor]. constructor; [exact E|constructor].
Qed.
(** The file has at most as many sections as there are rule sets. *)
Theorem C59_rule_files_partial : C59_claim (fun n secs => List.length secs <= n).
Proof.
  intros strtod c n pre secs rss P NH W L F. rewrite (rulesets_spec strtod c n pre secs rss) by auto.
  rewrite firstn_all2. { rewrite Nat.min_r by auto. reflexivity. }
  rewrite app_length, repeat_length, <- (F2_len _ _ _ _ _ F). lia.
Qed.
(** More sections: the first one that is too many is followed by a line which is no header. *)
Theorem C59_further_sections_ignored : forall strtod c n pre secs rss h l more, List.length secs = n ->
  Forall plain_line (pre ++ flat_map section_lines secs) -> plain_line h -> plain_line l -> Forall plain_line more ->
  Forall (fun l => ~ is_header l) pre -> Forall well_formed secs -> is_header h -> ~ is_header l ->
  Forall2 (fun (s : section) rs => Forall2 (parsed strtod c) (rule_texts (snd s)) rs) secs rss ->
  parse_rulesets_from_file strtod c (file_of ((pre ++ flat_map section_lines secs) ++ h :: l :: more)) (repeat [] n)
    = Ok (Some (rss, n)).
Proof. exact rulesets_more. Qed.
(** The first line that is not accepted makes the file be refused. *)
Theorem C59_bad_line_refused : forall strtod c n pre secs rss h good l more rs1, List.length secs < n ->
  Forall plain_line (pre ++ flat_map section_lines secs ++ section_lines (h, good ++ l :: more)) ->
  Forall (fun l => ~ is_header l) pre -> Forall well_formed secs -> is_header h -> Forall (fun l => ~ is_header l) good -> ~ is_header l ->
  Forall2 (fun (s : section) rs => Forall2 (parsed strtod c) (rule_texts (snd s)) rs) secs rss -> Forall2 (parsed strtod c) (rule_texts good) rs1 ->
  meat l <> [] -> parse_rule strtod c (meat l) = Ok None ->
  parse_rulesets_from_file strtod c (file_of (pre ++ flat_map section_lines secs ++ section_lines (h, good ++ l :: more))) (repeat [] n) = Ok None.
Proof. exact rulesets_reject. Qed.
(** Without a newline at its end the last line loses its last character: 2->10 becomes 2->1. *)
Definition C59_last : cstr := str "RULESET" ++ [LF] ++ str "2->10".
Definition C59_last_newline : cstr := C59_last ++ [LF].
Theorem C59_last_line_cut : 
  match parse_rulesets_from_file strtod the_arith_ctx C59_last [[]], parse_rule strtod the_arith_ctx (str "2->1"),
        parse_rulesets_from_file strtod the_arith_ctx C59_last_newline [[]], parse_rule strtod the_arith_ctx (str "2->10") with
  | Ok (Some ([[r1]], 1)), Ok (Some r1'), Ok (Some ([[r2]], 1)), Ok (Some r2') => r1 = r1' /\ r2 = r2' /\ r1 <> r2
  | _, _, _, _ => False
  end.
Proof. vm_compute. split; [reflexivity|]. split; [reflexivity|]. intros H. discriminate H. Qed.
Example C59_case : 
  let file := file_of [str "# rules"; str "RULESET   # one"; str "  x+0 -> x # zero"; str ""; str " x*1 -> x"; str "RULESET"; str "x-x->0"] in
  match parse_rulesets_from_file strtod the_arith_ctx file [[]; []; []] with
  | Ok (Some ([[_; _]; [_]; []], 2)) => True
  | _ => False
  end.
Proof. vm_compute. exact I. Qed.
Print Assumptions C59_rule_files_refuted.
Print Assumptions C59_rule_files_partial.
Print Assumptions C59_further_sections_ignored.
Print Assumptions C59_bad_line_refused.
Print Assumptions C59_last_line_cut.
