(** Proofs about printing: parsed trees are printable (C23). *)
From Coq Require Import List Ascii String NArith ZArith Bool Lia Arith Permutation.
From Verif Require Import M_Base M_StringUtil M_Tree M_Trie M_Context M_Tokenizer M_Parser M_Printer S_Engine S_Parse S_Tree S_Print
  L_StringUtil L_Trie L_Tokenizer L_Tree L_Context L_Parser L_ParserInv L_SetUp L_Lex P_Parse L_Session L_Print L_PrintLex.
Import ListNotations.
Open Scope nat_scope.
Open Scope res_scope.

(** ** Leaves of parsed trees *)
Section Leaves.
Variable strtod : cstr -> option double.
Variable pc : pctx.
Definition read_const (v : double) : Prop := exists n, strtod n = Some v.
Definition read_var (x : cstr) : Prop := (forall p, pc_lookup pc p x = None) /\ strtod x = None /\ is_letter (hd NUL x) = true.
Definition leaf_ok (n : node) : Prop := Forall read_const (constants n) /\ Forall read_var (var_names n).
Definition leaves_ok (i : nat) (s : pstate) : Prop := Forall leaf_ok (p_nodes s).
Lemma leaf_ok_op : forall op cs k, Forall leaf_ok cs -> leaf_ok (NOp op cs k).
Proof.
  intros op cs k F. unfold leaf_ok. cbn [constants var_names]. rewrite !Forall_flat_map. split; eapply Forall_impl; try exact F; intros a [A B]; auto.
Qed.
Lemma leaves_pop : forall i s s' b, leaves_ok i s -> op_pop_and_insert s = Ok (s', b) -> leaves_ok i s'.
Proof.
  intros i s s' b H E. unfold leaves_ok in *. unfold op_pop_and_insert in E. destruct (p_ops s) as [|od ops] eqn:Eo; [discriminate|].
  destruct (od_op od) as [op|].
  - destruct (_ && _) eqn:Ea; [inversion E; subst; auto|].
    destruct (count_of _) as [k| |] eqn:Ec; cbn [rbind] in E; try discriminate.
    destruct (_ <? _) eqn:El; inversion E; subst; simpl; auto.
    constructor; [|apply Forall_skipn; auto]. apply leaf_ok_op. apply Forall_rev. apply Forall_firstn; auto.
  - inversion E; subst. auto.
Qed.
Lemma parse_leaves : forall ts t, parse_tokens strtod pc ts = Ok (PTree t) -> leaf_ok t.
Proof.
  intros ts t E. unfold parse_tokens in E.
  destruct (tokens_loop strtod pc init_pstate 0 ts) as [c| |] eqn:El; cbn [rbind] in E; try discriminate.
  assert (HH : exists j, j <= 0 + List.length ts /\ Qc leaves_ok j c /\ (match c with Next _ => j = 0 + List.length ts | Exit _ => j < 0 + List.length ts end)).
  { eapply (loop_Q strtod pc leaves_ok); eauto using leaves_pop; unfold leaves_ok; intros; simpl; auto.
    - unfold set_top_arity. destruct (p_ops s); auto.
    - constructor; auto. split; cbn; auto.
    - constructor; auto. split; cbn; auto. }
  destruct HH as (j & A & B & C).
  destruct c as [s|s].
  - subst j. simpl in B. destruct (finish s (List.length ts)) as [[s2|s2]| |] eqn:Ef; cbn [rbind] in E; try discriminate.
    + assert (HF : Qc leaves_ok (List.length ts) (Next s2)).
      { eapply (finish_Q leaves_ok); [| | | | exact Ef]; eauto using leaves_pop. }
      simpl in HF. unfold leaves_ok in HF. destruct (p_nodes s2); [discriminate|]. inversion HF; subst.
      destruct (perr_is_success _); inversion E; subst. auto.
    + unfold at_exit in E. destruct (perr_is_success _); inversion E.
  - unfold at_exit in E. destruct (perr_is_success _); inversion E.
Qed.
End Leaves.

(** ** Operators of parsed trees *)
(** ** Parsed trees are printable *)
Section Parsed.
Variable strtod : cstr -> option double.
Variable fmt : double -> cstr.
Variable c : ctx.
Hypothesis SU : set_up c.
Lemma view_unused : forall n p, pc_lookup (view c) p n = None -> unused c n p.
Proof.
  intros n p H. destruct (set_up_crep c SU) as (r & C & _). unfold view in H. cbn [pc_lookup] in H. unfold unused.
  rewrite (lookup_crep _ _ _ _ C) in *. destruct (reg_find r n p); congruence.
Qed.
Lemma digits_unused : forall n p, n <> [] -> Forall digit_char n -> unused c n p.
Proof.
  intros n p N F. destruct (set_up_crep c SU) as (r & C & _ & D & _). unfold unused. rewrite (lookup_crep _ _ _ _ C).
  destruct (reg_find r n p) as [o|] eqn:E; auto. apply reg_find_In in E. destruct E as (I & <- & _). destruct (D o I).
  destruct (o_name o) as [|ch s]; [congruence|]. inversion F; subst. exists ch, s. auto.
Qed.
Lemma head_plain : forall ch s, letter_char ch \/ digit_char ch -> plain (0, ch :: s).
Proof.
  intros ch s H.
  assert (X : forall z, nat_of_ascii ch = z -> 46 <= z /\ z <> 123 /\ z <> 125).
  { intros z <-. unfold letter_char, digit_char, in_range in H. lia. }
  assert (Y : forall z, In z ["("; "{"; ")"; "}"; ","]%string -> streqb (ch :: s) (str z) = false).
  { intros z I. destruct (streqb_spec (ch :: s) (str z)) as [E|]; auto. exfalso.
    repeat (destruct I as [<-|I]; [injection E as E _; specialize (X _ eq_refl); rewrite E in X; cbn in X; lia|]). destruct I. }
  unfold plain, blank, opening, closing, delimiter, is_opening_parenthesis, is_closing_parenthesis, is_delimiter. cbn [snd hd].
  rewrite !Y by (simpl; tauto). split; [|repeat split; discriminate]. unfold is_space. rewrite ceqb_nat. apply Nat.eqb_neq. specialize (X _ eq_refl). cbn. lia.
Qed.
Definition good_var (x : cstr) : Prop := read_var strtod (view c) x /\ word x.
Lemma good_leaves : forall t, arities_ok t -> (forall op, In op (operators_of t) -> registered c op) -> Forall (reads_back strtod fmt) (constants t) ->
  Forall good_var (var_names t) -> printable_tree strtod fmt c t /\ plain_leaves fmt t.
Proof.
  induction t as [v k|x i k|op cs k IH] using node_ind'; intros A O C V; cbn [printable_tree plain_leaves constants var_names operators_of] in *.
  - inversion C as [|? ? (N & F & R) _]; subst. split; auto. split; [|split; [|split]]; auto; try (apply digits_unused; auto).
    destruct (fmt v) as [|ch s]; [congruence|]. apply head_plain. inversion F; auto.
  - inversion V as [|? ? ((U & Sx & L) & N & F) _]; subst. split; auto. split; [|split; [|split]]; auto.
    + destruct x as [|ch s]; [congruence|]. apply head_plain. inversion F; auto.
    + intros p. apply view_unused. auto.
  - cbn [arities_ok] in A. destruct A as [A1 A2]. rewrite all_Forall in *. rewrite Forall_flat_map in C, V.
    assert (H : Forall (fun t => printable_tree strtod fmt c t /\ plain_leaves fmt t) cs).
    { apply Forall_forall. intros t It. rewrite Forall_forall in IH, A2, C, V. apply IH; auto. intros o Io. apply O. right. apply in_flat_map. eauto. }
    split; [split; [apply O; left; auto|split; [tauto|]]|apply all_Forall]; eapply Forall_impl; try exact H; tauto.
Qed.
Lemma parsed_registered : forall input ts t, parse_input strtod c input = Ok (ts, PTree t) -> forall op, In op (operators_of t) -> registered c op.
Proof.
  intros input ts t E op I. pose proof (C17_arities_respected _ _ _ _ _ E) as A. destruct (C18_tokens_used_once _ _ _ _ _ SU E) as [Lv Op].
  destruct (roles_known strtod (view c) (registered c)) with (ts := unblanked ts) (b := false) as (R1 & R2 & _).
  - intros p n o H. unfold view in H. cbn [pc_lookup] in H. destruct (ctx_lookup_op c n p) as [[x|]| |] eqn:L; try discriminate H. injection H as <-.
    eapply lookup_registered; eauto.
  - intros g H. unfold view in H. cbn [pc_glue] in H. destruct (set_up_crep c SU) as (r & C & _ & _ & _ & [G|(g' & G & Ig & _)]); rewrite G in H; [discriminate H|]. injection H as <-.
    unfold registered. rewrite (lookup_crep _ _ _ _ C). f_equal. apply C. auto.
  - destruct (op_somewhere t op A I) as [(i & H)|(cs & i & H)].
    + apply (R1 op i). eapply Permutation_in; eauto.
    + rewrite Lv in H. eauto.
Qed.
Lemma lexed_word : forall kw s ts x, lexed kw s ts -> In x ts -> is_letter (hd NUL x) = true -> word x.
Proof.
  intros kw s ts x L I H. apply is_letter_spec in H.
  induction L as [|w rest ts N F _ L IH|w rest ts N F _ L IH|ch k rest ts N _ L IH|ch rest ts N _ _ L IH]; [destruct I| | | |]; (destruct I as [<-|I]; auto).
  - split; auto.
  - exfalso. destruct w as [|d w]; [congruence|]. inversion F; subst. cbn [hd] in H. eapply digit_not_letter; eauto.
  - contradiction.
  - contradiction.
Qed.
Lemma parsed_vars : forall input ts t, parse_input strtod c input = Ok (ts, PTree t) -> Forall good_var (var_names t).
Proof.
  intros input ts t E. pose proof E as E1. destruct (parse_input_tokens strtod c SU input) as (ts0 & K & _ & P). rewrite P in E1.
  destruct (parse_tokens strtod (view c) ts0) as [o| |] eqn:T; cbn [rbind] in E1; try discriminate E1. injection E1 as -> ->.
  apply parse_leaves in T. destruct T as [_ T]. pose proof (C17_arities_respected _ _ _ _ _ E) as A. destruct (C18_tokens_used_once _ _ _ _ _ SU E) as [Lv _].
  destruct (ctx_lexed c SU) as (kw & L1 & _ & _). destruct (L1 input) as (ts1 & K1 & L). rewrite K in K1. injection K1 as <-.
  rewrite Forall_forall in *. intros x Ix. split; auto. specialize (T x Ix). eapply lexed_word; [exact L| |apply T].
  destruct (roles_known strtod (view c) (fun o => True)) with (ts := unblanked ts) (b := false) as (_ & _ & R3); auto.
  destruct (var_leaf t x A Ix) as (d & i & H). rewrite Lv in H. apply R3 in H. apply unblanked_in. tauto.
Qed.
Lemma parsed_printable : forall input ts t, parse_input strtod c input = Ok (ts, PTree t) -> Forall (reads_back strtod fmt) (constants t) ->
  printable_tree strtod fmt c t /\ plain_leaves fmt t.
Proof.
  intros input ts t E C. apply good_leaves; auto.
  - eapply C17_arities_respected; eauto.
  - eapply parsed_registered; eauto.
  - eapply parsed_vars; eauto.
Qed.
End Parsed.
