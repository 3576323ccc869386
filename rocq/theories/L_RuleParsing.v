(** Proofs about M_RuleParsing *)
From Coq Require Import List Ascii String NArith ZArith Bool Lia Arith.
From Verif Require Import M_Base M_StringUtil M_Tree M_TreeUtil M_Context M_Parser M_Match M_RuleParsing L_Tree S_Util S_Tree S_Match S_Rules L_StringUtil L_MatchTop L_MatchRule.
Import ListNotations.
Open Scope nat_scope.
Open Scope res_scope.

Lemma strstr_cut : forall d s a b, cut_at_first d s a b -> strstr s d = Some (List.length a).
Proof.
  intros d s a b [E M]. destruct (strstr s d) as [n|] eqn:H.
  - apply strstr_some in H. destruct H as [Hl [E2 M2]]. pose proof (M _ _ E2). pose proof (M2 _ _ E).
    rewrite firstn_length in *. f_equal. lia.
  - apply strstr_none in H. exfalso. eapply H. exact E.
Qed.
Lemma strstr_not : forall d s, does_not_occur d s -> strstr s d = None.
Proof.
  intros d s H. destruct (strstr s d) as [n|] eqn:E; auto. apply strstr_some in E. destruct E as [_ [E _]].
  exfalso. eapply H. exact E.
Qed.
Lemma firstn_pre : forall A (a b : list A), firstn (List.length a) (a ++ b) = a.
Proof. intros. rewrite firstn_app, Nat.sub_diag, firstn_all, app_nil_r. reflexivity. Qed.
Lemma skipn_pre : forall A (a b : list A), skipn (List.length a) (a ++ b) = b.
Proof. intros. rewrite skipn_app, Nat.sub_diag, skipn_all. reflexivity. Qed.

Lemma pieces_exist : forall d s, d <> [] -> exists ps, pieces d s ps.
Proof.
  intros d s Hd. remember (List.length s) as n eqn:E. assert (List.length s <= n) as Hn by lia. clear E. revert s Hn.
  induction n as [|n IH]; intros s Hn.
  - destruct s as [|x s]; simpl in Hn; [|lia]. exists [[]]. constructor. intros a b E. symmetry in E.
    apply app_eq_nil in E. destruct E as [_ E]. apply app_eq_nil in E. tauto.
  - destruct (strstr s d) as [k|] eqn:E.
    + apply strstr_some in E. destruct E as [Hl E]. destruct (IH (skipn (k + List.length d) s)) as [ps Hp].
      { rewrite skipn_length. destruct d; [tauto|]. simpl in *. lia. }
      exists (firstn k s :: ps). econstructor; eauto.
    + exists [s]. constructor. apply strstr_none; auto.
Qed.

Lemma F2_len : forall A B (P : A -> B -> Prop) l m, Forall2 P l m -> List.length l = List.length m.
Proof. intros A B P l m F. induction F; simpl; auto. Qed.

Section RP.
Variable strtod : cstr -> option double.
Variable c : ctx.
Notation pe := (parse_easy strtod c).

Fixpoint parse_list (ps : list cstr) : res (option (list node)) :=
  match ps with
  | [] => Ok (Some [])
  | p :: ps' =>
    t <- pe p ;;
    match t with
    | None => Ok None
    | Some t => r <- parse_list ps' ;; Ok (option_map (cons t) r)
    end
  end.
Lemma parse_list_some : forall ps ts, parse_list ps = Ok (Some ts) <-> Forall2 (denotes strtod c) ps ts.
Proof.
  unfold denotes. induction ps as [|p ps IH]; intros ts; cbn [parse_list].
  - split; [intros [= <-]; constructor|]. intros H. inversion H; auto.
  - split.
    + intros H. destruct (pe p) as [[t|]| |] eqn:E; cbn [rbind] in H; try discriminate H.
      destruct (parse_list ps) as [[r|]| |] eqn:E2; cbn [rbind option_map] in H; try discriminate H.
      injection H as <-. constructor; auto. apply IH. reflexivity.
    + intros H. inversion H as [|? t ? r E F]; subst. rewrite E. cbn [rbind]. apply IH in F. rewrite F. reflexivity.
Qed.

Lemma constraints_pieces : forall room s ps, 1 <= room -> pieces AND s ps ->
  constraints_loop strtod c room s = parse_list (firstn room ps).
Proof.
  induction room as [|room IH]; intros s ps L P; [lia|]. cbn [constraints_loop].
  inversion P as [s' N|s' a b ps' K P']; subst.
  - rewrite strstr_not by auto. cbn [firstn parse_list]. rewrite firstn_nil. cbn [parse_list].
    destruct (pe s) as [[t|]| |]; cbn [rbind option_map]; auto. destruct (room =? 0); reflexivity.
  - rewrite (strstr_cut _ _ _ _ K). destruct K as [E _]. subst s. rewrite firstn_pre. cbn [firstn parse_list].
    destruct (pe a) as [[t|]| |]; cbn [rbind]; auto.
    destruct (Nat.eqb_spec room 0) as [->|Nz]; [reflexivity|].
    rewrite <- app_length, app_assoc, skipn_pre. rewrite (IH b ps') by (auto; lia). reflexivity.
Qed.

(** What parse_rule does with its three parts *)
Definition build (L R : cstr) (cs : list cstr) : res (option rule) :=
  constrs <- parse_list (firstn 3 cs) ;;
  match constrs with
  | None => Ok None
  | Some constrs =>
    l <- pe L ;;
    match l with
    | None => Ok None
    | Some l =>
      r <- pe R ;;
      match r with
      | None => Ok None
      | Some r => match get_pattern l constrs with PatErr _ => Ok None | PatOk pat => Ok (get_rule pat r) end
      end
    end
  end.

Lemma text_at_pre : forall a x b, no_nul a -> text_at (a ++ NUL :: b) 0 = a /\ text_at ((x ++ a) ++ NUL :: b) (List.length x) = a
   /\ text_at (x ++ a) (List.length x) = a.
Proof.
  intros a x b N. unfold text_at. cbn [skipn]. rewrite <- app_assoc, !skipn_pre, !until_nul_app by auto. cbn [until_nul].
  replace (ceqb NUL NUL) with true by reflexivity. rewrite app_nil_r. split; [auto|split; auto].
  rewrite <- (app_nil_r a) at 1. rewrite until_nul_app by auto. apply app_nil_r.
Qed.
Lemma no_nul_app : forall a b, no_nul (a ++ b) -> no_nul a /\ no_nul b.
Proof. unfold no_nul. intros a b H. split; intros I; apply H; apply in_or_app; auto. Qed.
Lemma vset_at : forall A (l r : list A) x y n, n = List.length l -> vset (l ++ x :: r) n y = l ++ y :: r.
Proof. intros; subst. apply vset_split. Qed.

Lemma parse_rule_reads : forall s L R cs, no_nul s -> rule_reads s L R cs -> parse_rule strtod c s = build L R cs.
Proof.
  intros s L R cs N H. unfold parse_rule. inversion H as [L0 R0 NW A|L0 R0 C cs0 A W P|L0 R0 C cs0 A W P]; subst.
  - rewrite (strstr_not WHERE s NW), (strstr_cut ARROW s _ _ A). destruct A as [E _]. cbn [option_map parse_constraints rbind].
    subst s. destruct (no_nul_app _ _ N) as [N1 N2]. destruct (no_nul_app _ _ N2) as [_ N3].
    change (str "->" ++ R) with ("-"%char :: ">"%char :: R). rewrite vset_split.
    rewrite (proj1 (text_at_pre L [] _ N1)).
    replace (text_at (L ++ NUL :: ">"%char :: R) (List.length L + List.length ARROW)) with R.
    + unfold build. cbn [firstn parse_list rbind]. reflexivity.
    + replace (L ++ NUL :: ">"%char :: R) with ((L ++ [NUL; ">"%char]) ++ R) by (rewrite <- app_assoc; reflexivity).
      replace (List.length L + List.length ARROW) with (List.length (L ++ [NUL; ">"%char])) by (rewrite app_length; reflexivity).
      symmetry. apply (text_at_pre R _ [] N3).
  - rewrite (strstr_cut WHERE s _ _ W), (strstr_cut ARROW s _ _ A). destruct A as [E _]. cbn [option_map parse_constraints].
    subst s. destruct (no_nul_app _ _ N) as [N1 N2]. destruct (no_nul_app _ _ N2) as [_ N3]. destruct (no_nul_app _ _ N3) as [N4 N5]. destruct (no_nul_app _ _ N5) as [_ N6].
    change (str "->" ++ R ++ str " WHERE " ++ C) with ("-"%char :: ">"%char :: R ++ " "%char :: str "WHERE " ++ C). rewrite vset_split.
    replace (vset (L ++ NUL :: ">"%char :: R ++ " "%char :: str "WHERE " ++ C) (List.length (L ++ str "->" ++ R)) NUL)
      with (L ++ NUL :: ">"%char :: R ++ NUL :: str "WHERE " ++ C).
    2:{ replace (L ++ NUL :: ">"%char :: R ++ " "%char :: str "WHERE " ++ C) with ((L ++ NUL :: ">"%char :: R) ++ " "%char :: str "WHERE " ++ C)
          by (rewrite <- app_assoc; reflexivity).
        rewrite vset_at by (rewrite !app_length; reflexivity). rewrite <- app_assoc. reflexivity. }
    rewrite (proj1 (text_at_pre L [] _ N1)).
    replace (text_at (L ++ NUL :: ">"%char :: R ++ NUL :: str "WHERE " ++ C) (List.length L + List.length ARROW)) with R.
    2:{ replace (L ++ NUL :: ">"%char :: R ++ NUL :: str "WHERE " ++ C) with (((L ++ [NUL; ">"%char]) ++ R) ++ NUL :: str "WHERE " ++ C)
          by (rewrite <- !app_assoc; reflexivity).
      replace (List.length L + List.length ARROW) with (List.length (L ++ [NUL; ">"%char])) by (rewrite app_length; reflexivity).
      symmetry. apply (text_at_pre R _ _ N4). }
    replace (text_at (L ++ NUL :: ">"%char :: R ++ NUL :: str "WHERE " ++ C) (List.length (L ++ str "->" ++ R) + List.length WHERE)) with C.
    2:{ replace (L ++ NUL :: ">"%char :: R ++ NUL :: str "WHERE " ++ C) with ((L ++ NUL :: ">"%char :: R ++ NUL :: str "WHERE ") ++ C)
          by (rewrite <- !app_assoc; cbn [app]; rewrite <- !app_assoc; reflexivity).
      replace (List.length (L ++ str "->" ++ R) + List.length WHERE) with (List.length (L ++ NUL :: ">"%char :: R ++ NUL :: str "WHERE "))
        by (rewrite !app_length; cbn; rewrite !app_length; cbn; lia).
      symmetry. apply (text_at_pre C _ [] N6). }
    unfold MATCHING_MAX_CONSTRAINTS. rewrite (constraints_pieces 3 C cs) by (auto; lia). reflexivity.
  - rewrite (strstr_cut WHERE s _ _ W), (strstr_cut ARROW s _ _ A). destruct W as [E _]. cbn [option_map parse_constraints].
    subst s. destruct (no_nul_app _ _ N) as [N1 N2]. destruct (no_nul_app _ _ N2) as [_ N3]. destruct (no_nul_app _ _ N3) as [N4 N5]. destruct (no_nul_app _ _ N5) as [_ N6].
    replace (vset (vset (L ++ str " WHERE " ++ C ++ str "->" ++ R) (List.length (L ++ str " WHERE " ++ C)) NUL) (List.length L) NUL)
      with (L ++ NUL :: str "WHERE " ++ C ++ NUL :: ">"%char :: R).
    2:{ replace (L ++ str " WHERE " ++ C ++ str "->" ++ R) with ((L ++ str " WHERE " ++ C) ++ "-"%char :: ">"%char :: R)
          by (rewrite <- !app_assoc; reflexivity).
        rewrite vset_split. rewrite <- app_assoc. change (str " WHERE " ++ C) with (" "%char :: str "WHERE " ++ C).
        cbn [app]. rewrite vset_split. rewrite <- app_assoc. reflexivity. }
    rewrite (proj1 (text_at_pre L [] _ N1)).
    replace (text_at (L ++ NUL :: str "WHERE " ++ C ++ NUL :: ">"%char :: R) (List.length (L ++ str " WHERE " ++ C) + List.length ARROW)) with R.
    2:{ replace (L ++ NUL :: str "WHERE " ++ C ++ NUL :: ">"%char :: R) with ((L ++ NUL :: str "WHERE " ++ C ++ [NUL; ">"%char]) ++ R)
          by (rewrite <- !app_assoc; cbn [app]; rewrite <- !app_assoc; reflexivity).
      replace (List.length (L ++ str " WHERE " ++ C) + List.length ARROW) with (List.length (L ++ NUL :: str "WHERE " ++ C ++ [NUL; ">"%char]))
        by (rewrite !app_length; cbn; rewrite !app_length; cbn; lia).
      symmetry. apply (text_at_pre R _ [] N6). }
    replace (text_at (L ++ NUL :: str "WHERE " ++ C ++ NUL :: ">"%char :: R) (List.length L + List.length WHERE)) with C.
    2:{ replace (L ++ NUL :: str "WHERE " ++ C ++ NUL :: ">"%char :: R) with (((L ++ NUL :: str "WHERE ") ++ C) ++ NUL :: ">"%char :: R)
          by (rewrite <- !app_assoc; reflexivity).
      replace (List.length L + List.length WHERE) with (List.length (L ++ NUL :: str "WHERE ")) by (rewrite app_length; reflexivity).
      symmetry. apply (text_at_pre C _ _ N4). }
    unfold MATCHING_MAX_CONSTRAINTS. rewrite (constraints_pieces 3 C cs) by (auto; lia). reflexivity.
Qed.

(** Every text with an arrow has a reading. *)
Lemma reads_exist : forall s, (exists L R, cut_at_first (str "->") s L R) -> exists L R cs, rule_reads s L R cs.
Proof.
  intros s (L & R & A). destruct (strstr s (str " WHERE ")) as [w|] eqn:W.
  2:{ apply strstr_none in W. exists L, R, []. constructor; auto. }
  apply strstr_some in W. destruct W as [Hw W]. set (X := firstn w s) in *. set (Y := skipn (w + List.length (str " WHERE ")) s) in *.
  pose proof (proj1 A) as EA. pose proof (proj1 W) as EW.
  assert (Ch : forall k x, nth_error (str "->") k = Some x -> nth_error s (List.length L + k) = Some x).
  { intros k x Hk. rewrite EA. rewrite nth_error_app2 by lia. replace (List.length L + k - List.length L) with k by lia.
    rewrite nth_error_app1; auto. apply nth_error_Some. congruence. }
  assert (Cw : forall k x, nth_error (str " WHERE ") k = Some x -> nth_error s (List.length X + k) = Some x).
  { intros k x Hk. rewrite EW. rewrite nth_error_app2 by lia. replace (List.length X + k - List.length X) with k by lia.
    rewrite nth_error_app1; auto. apply nth_error_Some. congruence. }
  pose proof (Ch 0 _ eq_refl) as C0. pose proof (Ch 1 _ eq_refl) as C1.
  pose proof (Cw 0 _ eq_refl) as W0. pose proof (Cw 1 _ eq_refl) as W1. pose proof (Cw 2 _ eq_refl) as W2. pose proof (Cw 3 _ eq_refl) as W3.
  pose proof (Cw 4 _ eq_refl) as W4. pose proof (Cw 5 _ eq_refl) as W5. pose proof (Cw 6 _ eq_refl) as W6.
  assert (D : List.length L + 2 <= List.length X \/ List.length X + 7 <= List.length L).
  { assert (forall k x y j, nth_error s k = Some x -> nth_error s j = Some y -> x <> y -> k <> j) as Df by (intros k x y j H1 H2 H3 <-; congruence).
    pose proof (Df _ _ _ _ C1 W0 ltac:(discriminate)). pose proof (Df _ _ _ _ C0 W0 ltac:(discriminate)).
    pose proof (Df _ _ _ _ C0 W1 ltac:(discriminate)). pose proof (Df _ _ _ _ C0 W2 ltac:(discriminate)).
    pose proof (Df _ _ _ _ C0 W3 ltac:(discriminate)). pose proof (Df _ _ _ _ C0 W4 ltac:(discriminate)).
    pose proof (Df _ _ _ _ C0 W5 ltac:(discriminate)). pose proof (Df _ _ _ _ C0 W6 ltac:(discriminate)). lia. }
  assert (Sp : forall (a b x y : cstr) (d : cstr), a ++ d ++ b = x ++ y -> List.length a + List.length d <= List.length x ->
             exists m, x = a ++ d ++ m /\ b = m ++ y).
  { clear. intros a b x y d E Hl. rewrite app_assoc in E. exists (skipn (List.length (a ++ d)) x).
    assert (F : firstn (List.length (a ++ d)) x = a ++ d).
    { pose proof (f_equal (firstn (List.length (a ++ d))) E) as F. rewrite firstn_pre, firstn_app in F.
      replace (List.length (a ++ d) - List.length x) with 0 in F by (rewrite app_length; lia). rewrite app_nil_r in F. auto. }
    split.
    - rewrite app_assoc, <- F at 1. rewrite F. rewrite <- F at 1. symmetry. apply firstn_skipn.
    - apply (f_equal (skipn (List.length (a ++ d)))) in E. rewrite skipn_pre, skipn_app in E.
      replace (List.length (a ++ d) - List.length x) with 0 in E by (rewrite app_length; lia). exact E. }
  destruct D as [D|D].
  - destruct (Sp L R X (str " WHERE " ++ Y) (str "->")) as (m & E1 & E2); [rewrite <- EA; exact EW|exact D|].
    destruct (pieces_exist (str " ; ") Y) as [ps P]; [discriminate|].
    exists L, m, ps. apply (rr_after s L m Y ps); auto.
    + rewrite <- E2. exact A.
    + rewrite <- E1. exact W.
  - destruct (Sp X Y L (str "->" ++ R) (str " WHERE ")) as (m & E1 & E2); [rewrite <- EW; exact EA|exact D|].
    destruct (pieces_exist (str " ; ") m) as [ps P]; [discriminate|].
    exists X, R, ps. apply (rr_before s X R m ps); auto.
    + rewrite <- E1. exact A.
    + rewrite <- E2. exact W.
Qed.

Lemma build_some : forall L R cs r, build L R cs = Ok (Some r) <->
  exists p a ds pat, denotes strtod c L p /\ denotes strtod c R a /\ Forall2 (denotes strtod c) (firstn 3 cs) ds /\
    get_pattern p ds = PatOk pat /\ get_rule pat a = Some r.
Proof.
  intros L R cs r. unfold build. split.
  - intros H. destruct (parse_list (firstn 3 cs)) as [[ds|]| |] eqn:E1; cbn [rbind] in H; try discriminate H.
    destruct (pe L) as [[p|]| |] eqn:E2; cbn [rbind] in H; try discriminate H.
    destruct (pe R) as [[a|]| |] eqn:E3; cbn [rbind] in H; try discriminate H.
    destruct (get_pattern p ds) as [pat|] eqn:E4; [|discriminate H]. injection H as H.
    exists p, a, ds, pat. repeat split; auto. apply parse_list_some. auto.
  - intros (p & a & ds & pat & H1 & H2 & H3 & H4 & H5). apply parse_list_some in H3. rewrite H3. cbn [rbind].
    rewrite H1. cbn [rbind]. rewrite H2. cbn [rbind]. rewrite H4, H5. reflexivity.
Qed.

Lemma parse_rule_arrow : forall s r, parse_rule strtod c s = Ok (Some r) -> exists L R, cut_at_first (str "->") s L R.
Proof.
  intros s r H. unfold parse_rule in H. destruct (strstr s ARROW) as [a|] eqn:E; [|discriminate H].
  apply strstr_some in E. destruct E as [_ E]. eauto.
Qed.

(** ** Rule files *)
Lemma before_comment_spec : forall l, match strstr l COMMENT_PREFIX with Some n => firstn n l | None => l end = before_comment l.
Proof.
  induction l as [|x l IH]; [reflexivity|]. cbn [strstr before_comment].
  destruct (begins_with COMMENT_PREFIX (x :: l)) eqn:B.
  - apply begins_with_spec in B. destruct B as [r B]. injection B as -> _. reflexivity.
  - destruct (Ascii.eqb_spec x "#"%char) as [->|Nx].
    { exfalso. enough (begins_with COMMENT_PREFIX ("#"%char :: l) = true) by congruence. apply begins_with_spec. exists l. reflexivity. }
    rewrite <- IH. destruct (strstr l COMMENT_PREFIX); reflexivity.
Qed.
Lemma drop_blanks_spec : forall l, skipn (lead_blanks l) l = drop_blanks l.
Proof. induction l as [|x l IH]; [reflexivity|]. cbn [lead_blanks drop_blanks]. unfold ceqb. destruct (Ascii.eqb x " "); [exact IH|reflexivity]. Qed.

Lemma rule_line_spec : forall l x, no_nul l -> rule_line (l ++ [x]) = if ceqb x NUL then rule_line l else Ok (meat l).
Proof.
  intros l x N. unfold rule_line. rewrite until_nul_app by auto. cbn [until_nul]. destruct (ceqb x NUL) eqn:E.
  - assert (until_nul l = l ++ []) as -> by (rewrite <- (app_nil_r l) at 1; rewrite until_nul_app by auto; reflexivity). reflexivity.
  - rewrite app_length. cbn [List.length]. replace (List.length l + 1 - 1) with (List.length l) by lia.
    replace (List.length l + 1 =? 0) with false by (symmetry; apply Nat.eqb_neq; lia).
    rewrite firstn_pre, before_comment_spec, drop_blanks_spec. reflexivity.
Qed.

Lemma getlines_file : forall ls, Forall plain_line ls -> getlines (file_of ls) = map (fun l => l ++ [LF]) ls.
Proof.
  intros ls F. induction F as [|l ls [_ NL] F IH]; [reflexivity|]. cbn [file_of flat_map map]. fold (file_of ls). rewrite <- IH. clear IH F.
  revert NL. induction l as [|x l IHl]; intros NL; [reflexivity|].
  cbn [app getlines]. destruct (Ascii.eqb_spec x LF) as [->|Nx]; [exfalso; apply NL; left; reflexivity|].
  replace (ceqb x LF) with false by (symmetry; apply Ascii.eqb_neq; auto).
  rewrite IHl by (intros I; apply NL; right; auto). reflexivity.
Qed.

Definition parsed (x : cstr) (r : rule) : Prop := parse_rule strtod c x = Ok (Some r).

Lemma headerb : forall l, begins_with RULESET (meat l) = true <-> is_header l.
Proof. intros l. apply begins_with_spec. Qed.
Lemma headerb_false : forall l, ~ is_header l -> begins_with RULESET (meat l) = false.
Proof. intros l H. destruct (begins_with RULESET (meat l)) eqn:E; auto. apply headerb in E. tauto. Qed.
Notation loop := (rulesets_loop strtod c).
Definition raw (l : cstr) : cstr := l ++ [LF].
Lemma raw_line : forall l, plain_line l -> rule_line (raw l) = Ok (meat l).
Proof. intros l [N _]. unfold raw. rewrite rule_line_spec by auto. reflexivity. Qed.

Lemma loop_before : forall ls rest sets, Forall plain_line ls -> Forall (fun l => ~ is_header l) ls ->
  loop (map raw ls ++ rest) 0 sets = loop rest 0 sets.
Proof.
  intros ls rest sets P N. induction P as [|l ls Pl P IH]; [reflexivity|]. inversion N; subst. cbn [map app rulesets_loop].
  rewrite raw_line by auto. cbn [rbind]. rewrite headerb_false by auto. cbn [Nat.eqb]. rewrite IH by auto. destruct (List.length (meat l) =? 0); reflexivity.
Qed.
Lemma loop_body : forall ls rest done rs post rs2, Forall plain_line ls -> Forall (fun l => ~ is_header l) ls ->
  Forall2 parsed (rule_texts ls) rs2 ->
  loop (map raw ls ++ rest) (S (List.length done)) (done ++ rs :: post) = loop rest (S (List.length done)) (done ++ (rs ++ rs2) :: post).
Proof.
  intros ls. induction ls as [|l ls IH]; intros rest done rs post rs2 P N F.
  - inversion F; subst. rewrite app_nil_r. reflexivity.
  - inversion P; subst. inversion N; subst. cbn [map app rulesets_loop]. rewrite raw_line by auto. cbn [rbind]. rewrite headerb_false by auto.
    replace (S (List.length done) =? S (List.length (done ++ rs :: post))) with false
      by (symmetry; apply Nat.eqb_neq; rewrite app_length; simpl; lia).
    unfold rule_texts in F. cbn [map filter] in F. destruct (meat l) as [|x m] eqn:E.
    + cbn [List.length Nat.eqb]. apply IH; auto.
    + cbn [List.length Nat.eqb]. inversion F as [|? r1 ? rs3 F1 F2]; subst.
      rewrite nth_error_app2, Nat.sub_diag by lia. cbn [nth_error]. unfold parsed in F1. rewrite F1. cbn [rbind].
      rewrite vset_split. replace (rs ++ r1 :: rs3) with ((rs ++ [r1]) ++ rs3) by (rewrite <- app_assoc; reflexivity). apply IH; auto.
Qed.
Lemma loop_sections : forall secs rest done post rss, Forall (fun s => Forall plain_line (section_lines s)) secs ->
  Forall well_formed secs -> Forall2 (fun (s : section) rs => Forall2 parsed (rule_texts (snd s)) rs) secs rss -> List.length post = List.length secs ->
  Forall (fun p => p = []) post -> forall more,
  loop (map raw (flat_map section_lines secs) ++ rest) (List.length done) (done ++ post ++ more)
    = loop rest (List.length done + List.length secs) (done ++ rss ++ more).
Proof.
  intros secs. induction secs as [|[h b] secs IH]; intros rest done post rss P W F L Em more.
  - inversion F; subst. destruct post; [|discriminate L]. cbn. rewrite Nat.add_0_r. reflexivity.
  - inversion P as [|? ? P1 P2]; subst. inversion W as [|? ? [W1 W1'] W2]; subst. inversion F as [|? rs ? rss' F1 F2]; subst.
    destruct post as [|p post]; [discriminate L|]. inversion Em; subst. injection L as L. unfold section_lines in P1. cbn [fst snd] in *. inversion P1; subst.
    cbn [flat_map section_lines fst snd]. rewrite map_app. cbn [map app]. rewrite <- app_assoc. change (section_lines (h, b)) with (h :: b). cbn [map app rulesets_loop].
    rewrite raw_line by auto. cbn [rbind]. rewrite (proj2 (headerb h)) by auto.
    rewrite (loop_body b _ done [] (post ++ more) rs) by auto. cbn [app].
    replace (done ++ rs :: post ++ more) with ((done ++ [rs]) ++ post ++ more) by (rewrite <- app_assoc; reflexivity).
    replace (S (List.length done)) with (List.length (done ++ [rs])) by (rewrite app_length; simpl; lia).
    rewrite (IH rest (done ++ [rs]) post rss') by auto. rewrite app_length. cbn [List.length]. rewrite <- app_assoc. cbn [app]. f_equal. lia.
Qed.

Lemma map_raw_file : forall ls, Forall plain_line ls -> getlines (file_of ls) = map raw ls.
Proof. exact getlines_file. Qed.

Lemma rulesets_spec : forall n pre secs rss, List.length secs <= n -> Forall plain_line (pre ++ flat_map section_lines secs) ->
  Forall (fun l => ~ is_header l) pre -> Forall well_formed secs ->
  Forall2 (fun (s : section) rs => Forall2 parsed (rule_texts (snd s)) rs) secs rss ->
  parse_rulesets_from_file strtod c (file_of (pre ++ flat_map section_lines secs)) (repeat [] n)
    = Ok (Some (rss ++ repeat [] (n - List.length secs), List.length secs)).
Proof.
  intros n pre secs rss L P NH W F. unfold parse_rulesets_from_file. rewrite map_raw_file by auto. rewrite map_app.
  apply Forall_app in P. destruct P as [P1 P2]. rewrite loop_before by auto.
  replace (repeat (@nil rule) n) with (repeat (@nil rule) (List.length secs) ++ repeat [] (n - List.length secs))
    by (rewrite <- repeat_app; f_equal; lia).
  pose proof (loop_sections secs [] [] (repeat [] (List.length secs)) rss) as H. rewrite app_nil_r in H. cbn [List.length app Nat.add] in H.
  rewrite H; auto.
  - revert P2. clear. induction secs as [|s secs IH]; intros P; constructor; apply Forall_app in P; tauto.
  - apply repeat_length.
  - apply Forall_forall. intros x I. eapply repeat_spec; eauto.
Qed.

(** One section too many that has at least one more line: it is ignored with all that follows. *)
Lemma rulesets_more : forall n pre secs rss h l more, List.length secs = n -> 
  Forall plain_line (pre ++ flat_map section_lines secs) -> plain_line h -> plain_line l -> Forall plain_line more ->
  Forall (fun l => ~ is_header l) pre -> Forall well_formed secs -> is_header h -> ~ is_header l ->
  Forall2 (fun (s : section) rs => Forall2 parsed (rule_texts (snd s)) rs) secs rss ->
  parse_rulesets_from_file strtod c (file_of ((pre ++ flat_map section_lines secs) ++ h :: l :: more)) (repeat [] n)
    = Ok (Some (rss, n)).
Proof.
  intros n pre secs rss h l more L P Ph Pl Pm NH W Hh Hl F. unfold parse_rulesets_from_file.
  rewrite map_raw_file by (apply Forall_app; auto). rewrite !map_app, <- app_assoc.
  apply Forall_app in P. destruct P as [P1 P2]. rewrite loop_before by auto.
  pose proof (loop_sections secs (map raw (h :: l :: more)) [] (repeat [] (List.length secs)) rss) as H. cbn [List.length app Nat.add] in H.
  rewrite <- L. specialize (H ltac:(revert P2; clear; induction secs as [|s secs IH]; intros P; constructor; apply Forall_app in P; tauto) W F (repeat_length _ _)).
  specialize (H ltac:(apply Forall_forall; intros x I; eapply repeat_spec; eauto) []). rewrite !app_nil_r in H. rewrite H.
  cbn [map rulesets_loop]. rewrite raw_line by auto. cbn [rbind]. rewrite (proj2 (headerb h)) by auto. cbn [rulesets_loop].
  rewrite raw_line by auto. cbn [rbind]. rewrite headerb_false by auto. rewrite <- (F2_len _ _ _ _ _ F), Nat.eqb_refl. reflexivity.
Qed.
(** A line that is no rule: -1. *)
Lemma rulesets_reject : forall n pre secs rss h good l more rs1, List.length secs < n ->
  Forall plain_line (pre ++ flat_map section_lines secs ++ section_lines (h, good ++ l :: more)) ->
  Forall (fun l => ~ is_header l) pre -> Forall well_formed secs -> is_header h -> Forall (fun l => ~ is_header l) good -> ~ is_header l ->
  Forall2 (fun (s : section) rs => Forall2 parsed (rule_texts (snd s)) rs) secs rss -> Forall2 parsed (rule_texts good) rs1 ->
  meat l <> [] -> parse_rule strtod c (meat l) = Ok None ->
  parse_rulesets_from_file strtod c (file_of (pre ++ flat_map section_lines secs ++ section_lines (h, good ++ l :: more))) (repeat [] n) = Ok None.
Proof.
  intros n pre secs rss h good l more rs1 L P NH W Hh Hg Hl F F1 Ne E. unfold parse_rulesets_from_file. rewrite map_raw_file by auto. rewrite !map_app.
  apply Forall_app in P. destruct P as [P1 P2]. apply Forall_app in P2. destruct P2 as [P2 P3]. inversion P3 as [|? ? P4 P5]; subst. cbn [snd] in P5.
  apply Forall_app in P5. destruct P5 as [P5 P6]. inversion P6; subst. cbn [fst] in P4.
  rewrite loop_before by auto.
  replace (repeat (@nil rule) n) with (repeat (@nil rule) (List.length secs) ++ [] :: repeat [] (n - List.length secs - 1)).
  2:{ change ([] :: repeat [] (n - List.length secs - 1)) with (repeat (@nil rule) (S (n - List.length secs - 1))). rewrite <- repeat_app. f_equal. lia. }
  pose proof (loop_sections secs (map raw (section_lines (h, good ++ l :: more))) [] (repeat [] (List.length secs)) rss) as H. cbn [List.length app Nat.add] in H.
  rewrite H; auto.
  2:{ revert P2. clear. induction secs as [|s secs IH]; intros P; constructor; apply Forall_app in P; tauto. }
  2:{ apply repeat_length. }
  2:{ apply Forall_forall. intros x I. eapply repeat_spec; eauto. }
  change (section_lines (h, good ++ l :: more)) with (h :: good ++ l :: more). cbn [map rulesets_loop]. rewrite raw_line by auto. cbn [rbind].
  rewrite (proj2 (headerb h)) by auto. rewrite map_app, (F2_len _ _ _ _ _ F).
  rewrite (loop_body good _ rss [] _ rs1) by auto. cbn [app map rulesets_loop]. rewrite raw_line by auto. cbn [rbind]. rewrite headerb_false by auto.
  replace (S (List.length rss) =? S (List.length (rss ++ rs1 :: repeat [] (n - List.length rss - 1)))) with false
      by (symmetry; apply Nat.eqb_neq; rewrite app_length; simpl; lia).
  destruct (meat l) as [|x m] eqn:Em; [tauto|]. cbn [List.length Nat.eqb].
  rewrite nth_error_app2, Nat.sub_diag by lia. cbn [nth_error]. rewrite E. reflexivity.
Qed.
End RP.

(** At most ten variables and at most three constraints are always accepted. *)
Lemma pattern_accepted : forall p ds, List.length (firsts (var_names p)) <= 10 -> List.length ds <= 3 -> exists pat, get_pattern p ds = PatOk pat.
Proof.
  intros p ds L L3. unfold get_pattern, list_variables.
  pose proof (lv_spec MAX_MAPPED_VARS p [] (Nat.le_0_l _)) as H. cbn [app] in H. cbn zeta in H. rewrite news_firsts in H.
  destruct (Nat.leb_spec (List.length (firsts (var_names p))) MAX_MAPPED_VARS) as [L'|L']; [|unfold MAX_MAPPED_VARS in L'; lia].
  rewrite H.
  assert (A : forall ds acc vs, (forall id, List.length (nth id acc []) + List.length ds <= 3) -> exists acc', add_constraints vs ds acc = Some acc').
  { clear. induction ds as [|d ds IH]; intros acc vs B; [eexists; reflexivity|]. cbn [add_constraints].
    set (id := trigger _ _ _ _). pose proof (B id) as Bi. simpl in Bi.
    destruct (Nat.eqb_spec (List.length (nth id acc [])) MATCHING_MAX_CONSTRAINTS) as [E|_]; [unfold MATCHING_MAX_CONSTRAINTS in E; lia|].
    apply IH. intros j. pose proof (B j) as Bj. simpl in Bj.
    assert (nth j (vset acc id (nth id acc [] ++ [tree_copy_IDs d vs])) [] = nth j acc [] \/
            nth j (vset acc id (nth id acc [] ++ [tree_copy_IDs d vs])) [] = nth id acc [] ++ [tree_copy_IDs d vs]) as [->| ->].
    { generalize (nth id acc [] ++ [tree_copy_IDs d vs]). generalize id. clear. intros id x. revert acc j. induction id as [|id IH]; intros [|a acc] [|j]; simpl; auto. }
    - lia.
    - rewrite app_length. simpl. lia. }
  destruct (A ds (repeat [] MAX_MAPPED_VARS) (firsts (var_names p))) as [acc ->]; [|eauto].
  intros id. replace (nth id (repeat (@nil node) MAX_MAPPED_VARS) []) with (@nil node); [simpl; auto|].
  symmetry. apply nth_repeat.
Qed.
