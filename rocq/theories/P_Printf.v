(** Printed constants read back (C53), and what it means for printed trees (C23). *)
From Coq Require Import Reals.
From Flocq Require Import Core.
From Coq Require Import List Ascii String NArith ZArith Bool Lia Lra Arith.
From Coq.Floats Require Import SpecFloat.
From Verif Require Import M_Base M_StringUtil M_Trie M_Tree M_Context M_Tokenizer M_Parser M_Printer M_Printf M_TreeUtil M_ArithCtx M_Double M_Eval M_Session M_Strtod
  S_Engine S_Parse S_Tree S_Eval S_Session S_Print S_Printf P_Simplify L_Float L_TableNum L_Tree L_Session L_Reach L_SessionEx P_Parse P_Session L_ParserInv L_Print L_PrintLex L_PrintParse P_Print L_Printf L_ArithCtx.
Import ListNotations.
Open Scope string_scope.
Open Scope list_scope.
Open Scope Z_scope.
Open Scope R_scope.
Open Scope res_scope.

(** ** The printed text is a numeral for the nearest number with ten digits. *)
Theorem C53_printed_partial : forall v a, number v a -> / 10000 <= a <= 9999999999 ->
  exists r k, decimal (printf_g v) r /\ ten_digit_number r /\ bpow ten k <= a < bpow ten (k + 1) /\ Rabs (a - r) <= bpow ten (k - 9) / 2.
Proof.
  intros v a N H. rewrite <- ten_low in H. destruct (printed_form v a N H) as (num & den & d & x & Hn & Hd & E & T & D & Dd & X & k & K & R).
  exists (IZR d * bpow ten (x - 9)), k. split; [|split; [|split; auto]].
  - rewrite T. apply text_decimal; auto.
  - exists d, (x - 9)%Z. split; auto. lia.
Qed.
(** Numerals are read as the nearest double. *)
Theorem C53_numeral : forall s r, decimal s r -> r <= bpow radix2 1000 -> exists x, strtod s = Some x /\ number x (rnd r).
Proof. exact strtod_decimal. Qed.
(** Which texts are read as constants: numerals, as the nearest double, and the three words *)
Lemma digit_val_out : forall c, digit_val c = None -> ~ in_range c 48 57.
Proof. intros c H I. rewrite (digit_val_in c I) in H. discriminate H. Qed.
Lemma digit_cut : forall s, exists a b, s = a ++ b /\ digits a /\ (b = [] \/ exists c r, b = c :: r /\ digit_val c = None).
Proof.
  induction s as [|c s (a & b & E & D & B)]; [exists [], []; split; [reflexivity|]; split; [constructor|left; reflexivity]|].
  destruct (digit_val c) as [v|] eqn:V.
  - exists (c :: a), b. split; [cbn; congruence|]. split; [|exact B]. constructor; [|exact D]. unfold digit_val in V. destruct (Nat.leb_spec 48 (nat_of_ascii c)); [|discriminate V]. destruct (Nat.leb_spec (nat_of_ascii c) 57); [|discriminate V]. split; assumption.
  - exists [], (c :: s). split; [reflexivity|]. split; [constructor|]. right. exists c, s. auto.
Qed.
Lemma lower_val : forall c, lower c = if ((65 <=? nat_of_ascii c) && (nat_of_ascii c <=? 90))%nat then ascii_of_nat (nat_of_ascii c + 32) else c.
Proof. reflexivity. Qed.
Lemma spelled : forall s w, (forall d, In d (str w) -> in_range d 97 122) -> ieq s w = true <-> spells s w.
Proof.
  intros s w Lw. unfold ieq, spells. rewrite L_Trie.streqb_eq. revert Lw. generalize (str w) as l. clear w. induction s as [|c s IH]; intros [|d l] Lw.
  - split; [constructor|reflexivity].
  - split; intros H; [discriminate H|inversion H].
  - split; intros H; [discriminate H|inversion H].
  - cbn [map]. assert (K : lower c = d <-> (c = d \/ (in_range c 65 90 /\ nat_of_ascii d = nat_of_ascii c + 32)%nat)).
    { rewrite lower_val. pose proof (Lw d (or_introl eq_refl)) as Ld. unfold in_range in *. destruct (Nat.leb_spec 65 (nat_of_ascii c)) as [A|A]; destruct (Nat.leb_spec (nat_of_ascii c) 90) as [B|B]; cbn [andb].
      - assert (Em : nat_of_ascii (ascii_of_nat (nat_of_ascii c + 32)) = (nat_of_ascii c + 32)%nat) by (apply nat_ascii_embedding; lia). split.
        + intros <-. right. split; [lia|exact Em].
        + intros [->|[_ H]]; [lia|]. apply (f_equal ascii_of_nat) in H. rewrite ascii_nat_embedding in H. congruence.
      - split; [auto|]. intros [H|[H _]]; [exact H|lia].
      - split; [auto|]. intros [H|[H _]]; [exact H|lia].
      - split; [auto|]. intros [H|[H _]]; [exact H|lia]. }
    specialize (IH l (fun x I => Lw x (or_intror I))). split.
    + intros H. injection H as H1 H2. constructor; [apply K; exact H1|apply IH; exact H2].
    + intros H. inversion H; subst. f_equal; [apply K; assumption|apply IH; assumption].
Qed.
Lemma words_lower : forall w d, In w ["inf"; "infinity"; "nan"]%string -> In d (str w) -> in_range d 97 122.
Proof.
  intros w d I. assert (H : forallb (fun w => forallb (fun d => (97 <=? nat_of_ascii d) && (nat_of_ascii d <=? 122))%nat (str w)) ["inf"; "infinity"; "nan"]%string = true) by reflexivity. rewrite forallb_forall in H. specialize (H w I). rewrite forallb_forall in H.
  intros J. specialize (H d J). apply andb_true_iff in H. destruct H as [A B]. apply Nat.leb_le in A, B. split; assumption.
Qed.
Theorem C77_numerals : forall s r, numeral s r -> r <= bpow radix2 1000 -> exists x, strtod s = Some x /\ number x (rnd r).
Proof.
  intros s r H B. destruct H as [ip N D|ip fp N D Df].
  - apply strtod_decimal; [constructor; assumption|exact B].
  - exists (ratio (Z.to_N (number_of (ip ++ fp))) (pow10 (List.length fp))). split.
    + unfold strtod. rewrite app_length. cbn [List.length]. destruct (Nat.eqb_spec (List.length ip + S (List.length fp)) 0) as [Z|Z]; [lia|].
      rewrite (scan_spec ip ("."%char :: fp) D) by (right; exists "."%char, fp; split; reflexivity). change (ceqb "." ".") with true. cbv iota.
      rewrite <- (app_nil_r fp) at 1. rewrite (scan_spec fp [] Df (or_introl eq_refl)). rewrite Z2N.id by (apply number_nonneg; [auto|lia]).
      change (Z.of_N 0) with 0%Z. rewrite <- fold_left_app. change (fold_left step10 (ip ++ fp) 0%Z) with (number_of (ip ++ fp)).
      destruct (Nat.eqb_spec (0 + List.length ip + (0 + List.length fp)) 0) as [Z'|Z']; [|reflexivity]. exfalso. apply N. destruct ip; destruct fp; [reflexivity|simpl in Z'; lia..].
    + rewrite <- pow10_Z in *. apply ratio_number; auto. apply digits_nonneg. apply Forall_app. auto.
Qed.
Theorem C77_language : forall s, s <> [] -> (strtod s <> None <-> (exists r, numeral s r) \/ spells s "inf" \/ spells s "infinity" \/ spells s "nan").
Proof.
  intros s Ne. rewrite <- (spelled s "inf"), <- (spelled s "infinity"), <- (spelled s "nan") by (intros d I; eapply words_lower; [|exact I]; cbn; tauto).
  assert (Ns : forall c r, s = c :: r -> forall w, ieq s w = true -> In w ["inf"; "infinity"; "nan"]%string -> ~ in_range c 48 57 /\ c <> "."%char).
  { intros c r -> w H I. apply (spelled _ w) in H; [|intros d; apply words_lower; exact I]. unfold spells in H. destruct (str w) as [|d l] eqn:Eq; [inversion H|]. assert (X : c = d \/ (in_range c 65 90 /\ nat_of_ascii d = nat_of_ascii c + 32)%nat) by (inversion H; assumption). assert (Id : In d (str w)) by (rewrite Eq; left; reflexivity). pose proof (words_lower w d I Id) as R. unfold in_range in *.
    destruct X as [->|[X1 X2]]; (split; [lia|intros ->; cbn in *; lia]). }
  destruct (digit_cut s) as (a & b & E & D & B). unfold strtod. destruct (Nat.eqb_spec (List.length s) 0) as [Z|Z]; [destruct s; [congruence|discriminate Z]|]. rewrite E at 1. rewrite (scan_spec a b D B). destruct B as [->|(c & r & -> & V)].
  - rewrite app_nil_r in E. subst a. cbn [Nat.add]. destruct (Nat.eqb_spec (List.length s) 0); [lia|]. split; [|discriminate]. intros _. left. exists (IZR (number_of s)). constructor; assumption.
  - destruct (ceqb c ".") eqn:Ec.
    + assert (c = "."%char) as -> by (apply Ascii.eqb_eq; exact Ec).
      assert (Nw : forall w, In w ["inf"; "infinity"; "nan"]%string -> ieq s w = false).
      { intros w I. destruct (ieq s w) eqn:H; [|reflexivity]. exfalso. destruct a as [|x a]; [destruct (Ns _ _ E w H I); congruence|]. destruct (Ns _ _ E w H I) as [K _]. inversion D. auto. }
      rewrite (Nw "inf"%string), (Nw "infinity"%string), (Nw "nan"%string) by (cbn; tauto).
      destruct (digit_cut r) as (a' & b' & E' & D' & B'). rewrite E'. rewrite (scan_spec a' b' D' B'). destruct B' as [->|(c' & r' & -> & V')].
      * rewrite app_nil_r in E'. subst a'. cbn [Nat.add]. split.
        -- intros H. left. exists (IZR (number_of (a ++ r)) / IZR (10 ^ Z.of_nat (List.length r))). rewrite E. constructor; auto. intros K. apply app_eq_nil in K. destruct K as [-> ->]. apply H. reflexivity.
        -- intros [(x & H)|[H|[H|H]]]; try discriminate H. destruct (Nat.eqb_spec (List.length a + List.length r) 0) as [Z0|Z0]; [|discriminate]. exfalso. assert (a = [] /\ r = []) as [-> ->] by (destruct a; destruct r; try (simpl in Z0; lia); auto).
           rewrite E in H. cbn [app] in H. inversion H as [ip N1 N2|ip fp N1 N2 N3 E1]; subst.
           ++ inversion N2 as [|? ? K _]; subst. unfold in_range in K. cbn in K. lia.
           ++ destruct ip as [|y ip]; [|destruct ip; discriminate E1]. injection E1 as ->. apply N1. reflexivity.
      * split; [congruence|]. intros [(x & H)|[H|[H|H]]]; try discriminate H. exfalso. apply digit_val_out in V'. apply digit_val_out in V. rewrite E, E' in H.
        assert (Cut : forall y z y' z' (p q : ascii), digits y -> digits y' -> ~ in_range p 48 57 -> ~ in_range q 48 57 -> y ++ p :: z = y' ++ q :: z' -> y = y' /\ z = z').
        { clear. induction y as [|m y IH]; intros z [|m' y'] z' p q H1 H2 Np Nq K; cbn [app] in K; injection K as K1 K2.
          - auto.
          - subst. inversion H2; contradiction.
          - subst. inversion H1; contradiction.
          - subst. inversion H1; subst. inversion H2; subst. destruct (IH _ _ _ _ _ H4 H6 Np Nq K2) as [-> ->]. auto. }
        inversion H as [ip N1 N2 E1|ip fp N1 N2 N3 E1]; subst.
        -- apply Forall_app in N2. destruct N2 as [_ N2]. inversion N2; contradiction.
        -- destruct (Cut _ _ _ _ _ _ N2 D V V E1) as [_ ->]. apply Forall_app in N3. destruct N3 as [_ N3]. inversion N3; contradiction.
    + assert (Nn : ~ exists x, numeral s x).
      { intros (x & H). apply digit_val_out in V. rewrite E in H. assert (c <> "."%char) by (intros ->; discriminate Ec). remember (a ++ c :: r) as s0 eqn:E0. destruct H as [ip N1 N2|ip fp N1 N2 N3].
        - subst. apply Forall_app in N2. destruct N2 as [_ N2]. inversion N2; contradiction.
        - clear - E0 D V H0 N2. revert a D E0. induction ip as [|m ip IH]; intros [|m' a] D E0; cbn [app] in E0; injection E0 as K1 K2.
          + congruence.
          + subst m'. inversion D as [|? ? K _]; subst. unfold in_range in K. cbn in K. lia.
          + subst m. inversion N2; contradiction.
          + inversion N2; inversion D; subst. eauto. }
      destruct (ieq s "inf"); [cbn [orb]; split; [auto|discriminate]|]. destruct (ieq s "infinity"); [cbn [orb]; split; [auto|discriminate]|]. cbn [orb]. destruct (ieq s "nan"); [split; [auto|discriminate]|].
      split; [congruence|]. intros [H|[H|[H|H]]]; try discriminate H. contradiction.
Qed.
Example C77_language_case : (exists r, numeral (str ".5") r) /\ (exists r, numeral (str "7.") r) /\ spells (str "InF") "inf" /\ strtod (str ".") = None /\ strtod (str "1.2.3") = None /\ strtod (str "x") = None.
Proof.
  split; [|split; [|split; [|split; [|split]]]]; try reflexivity.
  - exists (IZR (number_of ([] ++ str "5")) / IZR (10 ^ Z.of_nat (List.length (str "5")))). apply (num_frac [] (str "5")); [discriminate|constructor|repeat constructor].
  - exists (IZR (number_of (str "7" ++ [])) / IZR (10 ^ Z.of_nat (List.length (@nil ascii)))). apply (num_frac (str "7") []); [discriminate|repeat constructor|constructor].
  - unfold spells. constructor; [right; split; [split; apply Nat.leb_le; reflexivity|reflexivity]|]. constructor; [left; reflexivity|]. constructor; [right; split; [split; apply Nat.leb_le; reflexivity|reflexivity]|constructor].
Qed.
(** What a single word of the input is: constant, name, or an error at this word *)
Definition unnamed (pc : pctx) (t : cstr) : Prop := forall p, pc_lookup pc p t = None.
Lemma single : forall pc (t : cstr), unnamed pc t -> t <> [] -> (Forall figure t \/ Forall name_char t) ->
  parse_tokens strtod pc [t] = match strtod t with
    | Some v => Ok (PTree (NConst v 0))
    | None => if is_letter (hd NUL t) then Ok (PTree (NVar t 0 0)) else Ok (PErr PERR_UNEXPECTED_CHARACTER 0)
    end.
Proof.
  intros pc t U N F. destruct t as [|c t]; [congruence|].
  assert (H : figure c \/ name_char c) by (destruct F as [F|F]; inversion F; auto).
  assert (K : forall d, In d [" "; "("; "{"; ")"; "}"; ","]%char -> c <> d).
  { intros d I ->. unfold figure, name_char, in_range in H. cbn in I. repeat (destruct I as [<-|I]; [cbn in H; repeat (destruct H as [H|H]; try discriminate H; try lia)|]). contradiction. }
  assert (Kf : forall d, In d [" "; "("; "{"; ")"; "}"; ","]%char -> ceqb c d = false) by (intros d I; apply Ascii.eqb_neq; apply K; exact I).
  assert (Ks : forall w, In w ["("; "{"; ")"; "}"; ","]%string -> streqb (c :: t) (str w) = false).
  { intros w I. destruct (streqb (c :: t) (str w)) eqn:E; [|reflexivity]. apply L_Trie.streqb_eq in E. exfalso. cbn in I. repeat (destruct I as [<-|I]; [injection E as E _; refine (K _ _ E); cbn; tauto|]). contradiction. }
  unfold parse_tokens. cbn [tokens_loop]. unfold M_Parser.step. cbn [hd]. unfold is_space. rewrite (Kf " "%char) by (cbn; tauto). cbv iota.
  assert (Sg : step_glue pc (set_tok init_pstate 0) (c :: t) = Ok (Next (set_tok init_pstate 0))) by (unfold step_glue; destruct (pc_glue pc); reflexivity).
  rewrite Sg. cbn [rbind]. unfold step_main, is_opening_parenthesis, is_closing_parenthesis, is_delimiter. rewrite !Ks by (cbn; tauto). cbn [orb]. cbv iota. change (p_ap (set_tok init_pstate 0)) with false. cbv iota.
  unfold step_operator. change (p_ai (set_tok init_pstate 0)) with false. cbn [negb]. cbv iota. rewrite (U PFunction), (U PPrefix). unfold step_leaf, has. rewrite (U PInfix), (U PPostfix). cbn [orb]. destruct (strtod (c :: t)) as [v|]; [reflexivity|]. cbn [hd]. destruct (is_letter c); reflexivity.
Qed.
Lemma figure_letter : forall c, figure c -> is_letter c = false.
Proof.
  intros c [H| ->]; [|reflexivity]. unfold in_range in H. revert H. destruct c as [[] [] [] [] [] [] [] []]; cbn; intros H; try reflexivity; lia.
Qed.
Lemma name_letter : forall c, name_char c -> is_letter c = true.
Proof.
  intros c [H|[H|[-> |[-> | ->]]]]; try reflexivity; unfold in_range in H; revert H; destruct c as [[] [] [] [] [] [] [] []]; cbn; intros H; try reflexivity; lia.
Qed.
Lemma name_figure : forall c, name_char c -> figure c -> False.
Proof. intros c H F. apply name_letter in H. rewrite (figure_letter c F) in H. discriminate H. Qed.
Lemma numeral_figures : forall s r, numeral s r -> Forall figure s /\ s <> [].
Proof.
  intros s r [ip N D|ip fp N D Df].
  - split; [|exact N]. eapply Forall_impl; [|exact D]. intros c H. left. exact H.
  - split; [|destruct ip; discriminate]. apply Forall_app. split; [eapply Forall_impl; [|exact D]; intros c H; left; exact H|]. constructor; [right; reflexivity|]. eapply Forall_impl; [|exact Df]; intros c H; left; exact H.
Qed.
Lemma spells_chars : forall s w, (forall d, In d (str w) -> in_range d 97 122) -> spells s w -> Forall name_char s.
Proof.
  intros s w. unfold spells. generalize (str w) as l. clear w. intros l L H. induction H as [|c d s l [-> |[X _]] _ IH]; constructor.
  - right. left. apply L. left. reflexivity.
  - apply IH. intros x I. apply L. right. exact I.
  - left. exact X.
  - apply IH. intros x I. apply L. right. exact I.
Qed.
Definition constant_word (s : cstr) : Prop := spells s "inf" \/ spells s "infinity" \/ spells s "nan".
Theorem C77_figures : forall pc (t : cstr), t <> [] -> Forall figure t -> unnamed pc t ->
  (forall r, numeral t r -> r <= bpow radix2 1000 -> exists x, parse_tokens strtod pc [t] = Ok (PTree (NConst x 0)) /\ number x (rnd r)) /\
  ((forall r, ~ numeral t r) -> parse_tokens strtod pc [t] = Ok (PErr PERR_UNEXPECTED_CHARACTER 0)).
Proof.
  intros pc t N F U. rewrite (single pc t U N (or_introl F)). split.
  - intros r H B. destruct (C77_numerals t r H B) as (x & -> & X). exists x. auto.
  - intros H. destruct (strtod t) as [v0|] eqn:E.
    + exfalso. assert (K : strtod t <> None) by congruence. apply (C77_language t N) in K. destruct K as [(r & K)|K]; [exact (H r K)|].
      assert (Q : Forall name_char t) by (destruct K as [K|[K|K]]; (eapply spells_chars; [|exact K]; intros d I; eapply words_lower; [|exact I]; cbn; tauto)). destruct t as [|c t]; [congruence|]. inversion F; inversion Q; subst. eapply name_figure; eassumption.
    + destruct t as [|c t]; [congruence|]. cbn [hd]. inversion F; subst. rewrite figure_letter by assumption. reflexivity.
Qed.
Theorem C77_names : forall pc (t : cstr), t <> [] -> Forall name_char t -> unnamed pc t ->
  (constant_word t -> exists x, parse_tokens strtod pc [t] = Ok (PTree (NConst x 0)) /\ (spells t "nan" -> x = S754_nan) /\ (~ spells t "nan" -> x = S754_infinity false)) /\
  (~ constant_word t -> parse_tokens strtod pc [t] = Ok (PTree (NVar t 0 0))).
Proof.
  intros pc t N F U. rewrite (single pc t U N (or_intror F)). pose proof (C77_language t N) as L. split.
  - intros H. assert (K : strtod t <> None) by (apply L; right; exact H). destruct (strtod t) as [v|] eqn:E; [|congruence]. exists v. split; [reflexivity|].
    rewrite <- (spelled t "nan") by (intros d I; eapply words_lower; [|exact I]; cbn; tauto). destruct t as [|c t]; [congruence|]. unfold strtod in E. cbn [List.length] in E. change (S (List.length t) =? 0)%nat with false in E. cbv iota in E.
    assert (Dv : digit_val c = None). { inversion F as [|? ? G _]; subst. destruct (digit_val c) eqn:D; [|reflexivity]. exfalso. apply (name_figure c G). left. unfold digit_val in D. destruct (Nat.leb_spec 48 (nat_of_ascii c)); [|discriminate D]. destruct (Nat.leb_spec (nat_of_ascii c) 57); [|discriminate D]. split; assumption. }
    assert (Dp : ceqb c "." = false). { apply Ascii.eqb_neq. intros ->. inversion F as [|? ? G _]; subst. apply (name_figure _ G). right. reflexivity. }
    cbn [scan_digits] in E. rewrite Dv, Dp in E. destruct (ieq (c :: t) "inf" || ieq (c :: t) "infinity")%bool eqn:W.
    + injection E as <-. split; [|reflexivity]. intros Na. exfalso. unfold ieq in *. apply L_Trie.streqb_eq in Na. rewrite Na in W. discriminate W.
    + destruct (ieq (c :: t) "nan") eqn:Na; [|discriminate E]. injection E as <-. split; [reflexivity|congruence].
  - intros H. destruct (strtod t) as [v0|] eqn:E.
    + exfalso. assert (K : Some v0 <> None) by discriminate. apply L in K. destruct K as [(r & K)|K]; [|exact (H K)]. apply numeral_figures in K. destruct K as [K _]. destruct t as [|c t]; [congruence|]. inversion F; inversion K; subst. eapply name_figure; eassumption.
    + destruct t as [|c t]; [congruence|]. cbn [hd]. inversion F; subst. rewrite name_letter by assumption. reflexivity.
Qed.
(** In the calculator's own context: 1.2.3 is an error, Inf a number, infin a name. *)
Example C77_case : (forall w, In w ["1.2.3"; ".5"; "Inf"; "infin"]%string -> unnamed (M_Parser.view the_arith_ctx) (str w)) /\
  parse_tokens strtod (M_Parser.view the_arith_ctx) [str "1.2.3"] = Ok (PErr PERR_UNEXPECTED_CHARACTER 0) /\
  parse_tokens strtod (M_Parser.view the_arith_ctx) [str "Inf"] = Ok (PTree (NConst (S754_infinity false) 0)) /\
  parse_tokens strtod (M_Parser.view the_arith_ctx) [str "infin"] = Ok (PTree (NVar (str "infin") 0 0)).
Proof.
  split; [|split; [|split]]; try (vm_compute; reflexivity). intros w H p. 
  assert (K : forallb (fun w => forallb (fun p => match pc_lookup (M_Parser.view the_arith_ctx) p (str w) with None => true | Some _ => false end) [PPrefix; PInfix; PPostfix; PFunction]) ["1.2.3"; ".5"; "Inf"; "infin"]%string = true) by (vm_compute; reflexivity).
  rewrite forallb_forall in K. specialize (K w H). rewrite forallb_forall in K. specialize (K p). destruct (pc_lookup (M_Parser.view the_arith_ctx) p (str w)); [|reflexivity]. exfalso. assert (Q : In p [PPrefix; PInfix; PPostfix; PFunction]) by (destruct p; cbn; tauto). specialize (K Q). discriminate K.
Qed.
(** What is printed reads as a number that equals the one printed up to the tenth digit and prints the same. *)
Theorem C53_reread_partial : forall v, plain_range v ->
  exists x, strtod (printf_g v) = Some x /\ ten_alike v x /\ printf_g x = printf_g v /\ reads_back strtod printf_g x.
Proof.
  intros v [->|(a & N & H)].
  { exists (S754_zero false). split; [reflexivity|]. split; [left; reflexivity|]. split; [reflexivity|]. split; [discriminate|]. split; [|reflexivity].
    constructor; [left; vm_compute; lia|constructor]. }
  rewrite <- ten_low in H. destruct (printed_form v a N H) as (num & den & d & x & Hn & Hd & E & T & D & Dd & X & k & K & R).
  pose proof (text_decimal num den d x D Dd X) as De. rewrite <- T in De. pose proof (printed_range d x Dd X) as Rg. pose proof small_decimal as Sm.
  destruct (strtod_decimal _ _ De ltac:(lra)) as (y & Sy & Ny). pose proof (bpow_gt_0 ten (-4)) as P4. pose proof low_binary as Lo.
  destruct (rounded_near d x Dd ltac:(lra)) as [P C]. destruct (prints_as y _ d x Ny P Dd C) as (n2 & d2 & T2 & D2).
  assert (Pr : printf_g y = printf_g v). { rewrite T, T2. apply positive_text_eq. congruence. }
  exists y. split; auto. split; [|split; auto].
  - right. exists a, (rnd (IZR d * bpow ten (x - 9))), k. split; auto. split; auto. split; auto.
    pose proof (rnd_relative (IZR d * bpow ten (x - 9)) ltac:(lra)) as Rr. set (r := IZR d * bpow ten (x - 9)) in *.
    assert (E9 : bpow ten (k + 1) = 10000000000 * bpow ten (k - 9)). { replace (k + 1)%Z with (10 + (k - 9))%Z by lia. rewrite bpow_plus. reflexivity. }
    pose proof (bpow_gt_0 ten (k - 9)) as P9. apply Rabs_le_inv in R. apply Rabs_le_inv in Rr. apply Rabs_le. lra.
  - unfold reads_back. rewrite Pr. destruct (decimal_digits _ _ De). auto.
Qed.
(** Numbers entered with at most ten significant digits are printed so that they read as themselves. *)
Theorem C53_exact : forall v r, ten_digit_number r -> / 10000 <= r < 10000000000 -> number v (rnd r) -> decimal (printf_g v) r /\ reads_back strtod printf_g v.
Proof.
  intros v r Tr H N. rewrite <- ten_low in H. destruct (ten_normal r Tr) as (d & x & Dd & ->). pose proof (bpow_gt_0 ten (-4)) as P4. pose proof low_binary as Lo. pose proof small_decimal as Sm.
  assert (Bs : bpow radix2 (-100) <= IZR d * bpow ten (x - 9)) by lra. destruct (rounded_near d x Dd Bs) as [P C]. destruct (prints_as v _ d x N P Dd C) as (n2 & d2 & T2 & D2).
  assert (X : (-4 <= x <= 9)%Z).
  { assert (D' : IZR (10 ^ 9) <= IZR d < IZR (10 ^ 10)) by (split; [apply IZR_le|apply IZR_lt]; lia). change (IZR (10 ^ 9)) with 1000000000 in D'. change (IZR (10 ^ 10)) with 10000000000 in D'.
    pose proof (bpow_gt_0 ten (x - 9)) as Px. assert (E1 : bpow ten (x + 1) = 10000000000 * bpow ten (x - 9)). { replace (x + 1)%Z with (10 + (x - 9))%Z by lia. rewrite bpow_plus. reflexivity. }
    assert (E0 : bpow ten x = 1000000000 * bpow ten (x - 9)). { replace x with (9 + (x - 9))%Z at 1 by lia. rewrite bpow_plus. reflexivity. }
    assert (-4 < x + 1)%Z by (apply (lt_bpow ten); nra). assert (x < 10)%Z; [|lia]. apply (lt_bpow ten). change (bpow ten 10) with 10000000000. nra. }
  pose proof (text_decimal n2 d2 d x D2 Dd X) as De. rewrite <- T2 in De. split; auto. destruct (strtod_decimal _ _ De ltac:(lra)) as (y & Sy & Ny).
  assert (y = v) by (eapply number_unique; eauto; lra). subst y. destruct (decimal_digits _ _ De). unfold reads_back. auto.
Qed.
(** In particular the integers below 10^10 *)
Theorem C53_integers : forall v z, isZ v z -> (0 < z < 10 ^ 10)%Z -> decimal (printf_g v) (IZR z) /\ reads_back strtod printf_g v.
Proof.
  intros v z N H. assert (B : 1 <= IZR z < 10000000000). { split; [apply IZR_le; lia|]. change 10000000000 with (IZR (10 ^ 10)). apply IZR_lt. lia. }
  apply C53_exact; [exists z, 0%Z; split; [auto|change (bpow ten 0) with 1; ring]|lra|]. rewrite rnd_small; [exact N|]. unfold S_Eval.small. lia.
Qed.
(** Negative numbers: the same text behind a minus sign, which reads as an operator. *)
Theorem C53_negative : forall m e, printf_g (S754_finite true m e) = "-"%char :: printf_g (S754_finite false m e).
Proof. reflexivity. Qed.
(** Infinity and "not a number" *)
Theorem C53_special : strtod (printf_g (S754_infinity false)) = Some (S754_infinity false) /\ strtod (printf_g S754_nan) = Some S754_nan.
Proof. split; reflexivity. Qed.

(** ** Larger and smaller numbers are printed with an exponent. *)
Theorem C53_exponent : forall v a, number v a -> 0 < a -> 10000000000 <= a \/ a < / 100000 -> In "e"%char (printf_g v).
Proof.
  intros v a N P H. destruct (printf_positive v a N P) as (num & den & Hn & Hd & E & T). rewrite T. unfold positive_text.
  pose proof (ten_digits_spec num den Hn Hd) as S. pose proof (exponent10_spec num den Hn Hd) as K. rewrite E in *. destruct (ten_digits num den) as [d x].
  destruct S as (_ & _ & X). set (k := exponent10 num den) in *.
  assert (B : (10 <= x \/ x < -4)%Z).
  { destruct H as [H|H].
    - assert (10 < k + 1)%Z by (apply (lt_bpow ten); change (bpow ten 10) with 10000000000; lra). lia.
    - assert (k < -5)%Z by (apply (lt_bpow ten); change (bpow ten (-5)) with (/ 100000); lra). lia. }
  replace ((-4 <=? x)%Z && (x <=? 9)%Z)%bool with false by (symmetry; apply andb_false_iff; destruct B; [right|left]; apply Z.leb_gt; lia).
  apply in_or_app. right. apply in_or_app. right. left. reflexivity.
Qed.
(** Typed again, that is a product and a sum. *)
Notation typed_billions := (exec_command no_libm 20 strtod no_files 1 (state C40_session) (printf_g (of_Z (10 ^ 10)))).
Definition misread : double := S754_finite false 7159756162930676 (-49).
Lemma C53_misread : shows misread typed_billions = true. Proof. vm_compute. reflexivity. Qed.
Lemma C53_lives : lives C40_session = true. Proof. vm_compute. reflexivity. Qed.
Lemma shown : forall r v, shows v r = true -> exists s k, r = Done (Ok (Did s [SResult (NConst v k)] true)).
Proof.
  intros r v H. unfold shows in H.
  repeat (match type of H with context [match ?e with _ => _ end] => first [is_var e; destruct e|fail] end; try discriminate H).
  apply same_double_ok in H. subst. eexists. eexists. reflexivity.
Qed.
Lemma misread_number : number misread (IZR 7159756162930676 * bpow radix2 (-49)). Proof. split; [reflexivity|]. split; [exact Logic.I|reflexivity]. Qed.
Lemma billions_number : number (of_Z (10 ^ 10)) (IZR (10 ^ 10)). Proof. apply of_Z_Z. unfold S_Eval.small. lia. Qed.
Lemma reread_wrong : forall (exec : cstr -> step cmdres) v w a b, number v a -> number w b -> a / 2 < Rabs (b - a) -> shows w (exec (printf_g v)) = true ->
  ~ (forall v a s' w k, number v a -> exec (printf_g v) = Done (Ok (Did s' [SResult (NConst w k)] true)) -> exists b, number w b /\ Rabs (b - a) <= a / 2).
Proof.
  intros exec v w a b Nv Nw D Sh H. destruct (shown _ _ Sh) as (s & k & E). destruct (H v a s w k Nv E) as (b' & (_ & _ & <-) & L). destruct Nw as (_ & _ & <-). lra.
Qed.
Theorem C53_refuted : ~ (forall L fuel files s defs d, session_of L fuel strtod files any_function s defs ->
  forall v a s' w k, number v a -> exec_command L fuel strtod files d s (printf_g v) = Done (Ok (Did s' [SResult (NConst w k)] true)) -> exists b, number w b /\ Rabs (b - a) <= a / 2).
Proof.
  intros H. refine (reread_wrong _ _ _ _ _ billions_number misread_number _ C53_misread (H _ _ _ _ _ _ (bare_reached _ C53_lives))).
  change (bpow radix2 (-49)) with (/ 562949953421312). change (10 ^ 10)%Z with 10000000000%Z. rewrite Rabs_left; lra.
Qed.

(** ** Printed trees *)
Definition reread (v : double) : double := match strtod (printf_g v) with Some x => x | None => v end.
Fixpoint with_constants (n : node) : node :=
  match n with NConst v k => NConst (reread v) k | NVar x i k => NVar x i k | NOp op cs k => NOp op (map with_constants cs) k end.
Lemma with_ops : forall t, operators_of (with_constants t) = operators_of t.
Proof. induction t as [v k|x i k|op cs k IH] using node_ind'; auto. cbn [with_constants operators_of]. f_equal. rewrite !flat_map_concat_map, map_map. f_equal. apply map_ext_in. apply Forall_forall. auto. Qed.
Lemma with_vars : forall t, var_names (with_constants t) = var_names t.
Proof. induction t as [v k|x i k|op cs k IH] using node_ind'; auto. cbn [with_constants var_names]. rewrite !flat_map_concat_map, map_map. f_equal. apply map_ext_in. apply Forall_forall. auto. Qed.
Lemma with_consts : forall t, constants (with_constants t) = map reread (constants t).
Proof.
  induction t as [v k|x i k|op cs k IH] using node_ind'; auto. cbn [with_constants constants]. rewrite !flat_map_concat_map, concat_map, !map_map. f_equal.
  apply map_ext_in. apply Forall_forall. auto.
Qed.
Lemma with_arities : forall t, arities_ok t -> arities_ok (with_constants t).
Proof.
  induction t as [v k|x i k|op cs k IH] using node_ind'; intros A; auto. cbn [with_constants arities_ok] in *. rewrite map_length. destruct A as [A1 A2]. split; auto.
  apply all_Forall. apply all_Forall in A2. rewrite Forall_map. rewrite Forall_forall in *. auto.
Qed.
Lemma with_same : forall t, (forall v, In v (constants t) -> ten_alike v (reread v)) -> same_tree ten_alike t (with_constants t).
Proof.
  induction t as [v k|x i k|op cs k IH] using node_ind'; intros H; cbn [with_constants].
  - constructor. apply H. left. reflexivity.
  - constructor.
  - constructor. cbn [constants] in H. induction IH as [|t cs It IH IH']; cbn [map]; constructor.
    + apply It. intros v I. apply H. cbn [flat_map]. apply in_or_app. auto.
    + apply IH'. intros v I. apply H. cbn [flat_map]. apply in_or_app. auto.
Qed.
Lemma with_wrapped : forall cond t, child_wrapped cond (with_constants t) = child_wrapped cond t.
Proof. intros cond [v k|x i k|op cs k]; reflexivity. Qed.
Lemma with_text : forall t l r, (forall v, In v (constants t) -> printf_g (reread v) = printf_g v) -> to_str printf_g false (with_constants t) l r = to_str printf_g false t l r.
Proof.
  induction t as [v k|x i k|op cs k IH] using node_ind'; intros l r H; cbn [with_constants].
  - cbn [to_str]. rewrite H; auto. left. reflexivity.
  - reflexivity.
  - assert (K : Forall (fun t => forall l r, to_str printf_g false (with_constants t) l r = to_str printf_g false t l r) cs).
    { cbn [constants] in H. rewrite Forall_forall in *. intros t It l' r'. apply IH; auto. intros v Iv. apply H. apply in_flat_map. eauto. }
    clear IH H. cbn [to_str]. destruct (o_place op).
    + inversion K as [|c0 cs' H0 K']; subst; cbn [map]; auto. rewrite with_wrapped, !H0. reflexivity.
    + inversion K as [|c0 cs' H0 K']; subst; cbn [map]; auto. inversion K' as [|c1 cs'' H1 K'']; subst; cbn [map]; auto. rewrite !with_wrapped, !H0, !H1. reflexivity.
    + inversion K as [|c0 cs' H0 K']; subst; cbn [map]; auto. rewrite with_wrapped, !H0. reflexivity.
    + destruct (arity_zero (o_arity op)); [reflexivity|].
      match goal with |- rbind (?f (map with_constants cs)) _ = rbind (?g cs) _ => assert (E : f (map with_constants cs) = g cs) end.
      { induction K as [|t cs Ht K IHc]; [reflexivity|]. cbn [map]. rewrite Ht. destruct cs as [|b cs]; [reflexivity|]. cbn [map] in *. rewrite IHc. reflexivity. }
      rewrite E. reflexivity.
Qed.
Lemma bare_same : forall alike t t1 t', same_tree alike t t1 -> bare_tree t' = bare_tree t1 -> same_tree alike t t'.
Proof.
  induction t as [v k|x i k|op cs k IH] using node_ind'; intros t1 t' H E; inversion H; subst; destruct t' as [v' k'|x' i' k'|op' cs' k']; try discriminate E; cbn [bare_tree] in E.
  - injection E as ->. constructor. auto.
  - injection E as ->. constructor.
  - injection E as -> E. constructor. match goal with F : Forall2 _ cs ?l |- _ => rename F into F2; revert cs' E; induction F2 as [|c d cs ds Hc F2 IHF]; intros cs' E end.
    + destruct cs'; [constructor|discriminate E].
    + destruct cs' as [|c' cs']; [discriminate E|]. cbn [map] in E. injection E as Ec E. inversion IH as [|? ? I1 I2]; subst. constructor; [eapply I1; eauto|]. apply IHF; auto. constructor. auto.
Qed.
Lemma reread_ok : forall v, plain_range v -> ten_alike v (reread v) /\ printf_g (reread v) = printf_g v /\ reads_back strtod printf_g (reread v).
Proof. intros v H. destruct (C53_reread_partial v H) as (x & E & A & B & C). unfold reread. rewrite E. auto. Qed.
(** In every session: an expression whose numbers lie between 0.0001 and 9999999999 is printed as a text that reads as the same expression, with
    the same numbers up to the tenth digit; printed again, it is the same text. *)
Theorem C23_session_numbers : forall L fuel files s defs, session_of L fuel strtod files any_function s defs ->
  forall input ts t, parse_input strtod (ss_ctx s) input = Ok (ts, PTree t) -> Forall plain_range (constants t) ->
  exists text ts' t', tree_to_str printf_g false t = Ok text /\ parse_input strtod (ss_ctx s) text = Ok (ts', PTree t') /\ same_tree ten_alike t t'
    /\ tree_to_str printf_g false t' = Ok text.
Proof.
  intros L fuel files s defs R input ts t E C. rewrite Forall_forall in C. destruct (session_ctx _ _ _ _ _ _ R) as (S & P & Rd).
  destruct (good_leaves strtod printf_g (ss_ctx s) S (with_constants t)) as [G1 G2].
  - apply with_arities. eapply C17_arities_respected; eauto.
  - rewrite with_ops. eapply parsed_registered; eauto.
  - rewrite with_consts. apply Forall_map. apply Forall_forall. intros v I. apply reread_ok. auto.
  - rewrite with_vars. eapply parsed_vars; eauto.
  - destruct (C23_text_parses_back _ _ _ S P Rd _ G1 G2) as (text & ts' & t' & T & A & B).
    assert (T0 : tree_to_str printf_g false t = Ok text). { rewrite <- T. unfold tree_to_str, tree_pieces. rewrite with_text; auto. intros v I. apply reread_ok. auto. }
    exists text, ts', t'. split; auto. split; auto. split; [|rewrite (C23_same_text _ _ _ _ B); auto]. eapply bare_same; [|exact B]. apply with_same. intros v I. apply reread_ok. auto.
Qed.
(** Expressions entered with at most ten digits per number: exactly the same expression *)
Theorem C23_session_exact : forall L fuel files s defs, session_of L fuel strtod files any_function s defs ->
  forall input ts t, parse_input strtod (ss_ctx s) input = Ok (ts, PTree t) ->
  (forall v, In v (constants t) -> exists r, ten_digit_number r /\ / 10000 <= r < 10000000000 /\ number v (rnd r)) ->
  exists text ts' t', tree_to_str printf_g false t = Ok text /\ parse_input strtod (ss_ctx s) text = Ok (ts', PTree t') /\ bare_tree t' = bare_tree t.
Proof.
  intros L fuel files s defs R input ts t E C. destruct (C23_session_reparsed _ _ _ _ _ _ R printf_g _ _ _ E) as (text & ts' & t' & A & B & D & _).
  - apply Forall_forall. intros v I. destruct (C v I) as (r & T & Rg & N). apply (C53_exact v r); auto.
  - exists text, ts', t'. auto.
Qed.

(** ** Examples *)
Notation wide := "f(0.1+12345.678)^2*g(9876543210,0.000125,a)" (only parsing).
Definition in_range_b (v : double) : bool :=
  match v with
  | S754_zero false => true
  | S754_finite false m e =>
    valid_binary prec emax v && (if (0 <=? e)%Z then (Z.pos m * 2 ^ e <=? 9999999999)%Z else (Z.pos m <=? 9999999999 * 2 ^ (- e))%Z && ((2 ^ (- e)) <=? 10000 * Z.pos m)%Z)
  | _ => false
  end.
Lemma in_range_ok : forall v, in_range_b v = true -> plain_range v.
Proof.
  intros [[]| | |[] m e] H; try discriminate H; [left; reflexivity|]. right. unfold in_range_b in H. apply andb_true_iff in H. destruct H as [V H].
  exists (val (S754_finite false m e)). split; [split; [exact V|split; [exact Logic.I|reflexivity]]|]. cbn [val]. destruct (Z.leb_spec 0 e) as [L|L].
  - apply Z.leb_le in H. rewrite <- (IZR_Zpower radix2) by auto. change (radix2 ^ e)%Z with (2 ^ e)%Z. rewrite <- mult_IZR. split; [|apply IZR_le; auto].
    assert (0 < 2 ^ e)%Z by (apply Z.pow_pos_nonneg; lia). apply Rle_trans with 1; [lra|]. apply IZR_le. lia.
  - apply andb_true_iff in H. destruct H as [H1 H2]. apply Z.leb_le in H1. apply Z.leb_le in H2. apply IZR_le in H1. apply IZR_le in H2. rewrite !mult_IZR in *.
    assert (E : IZR (2 ^ - e) * bpow radix2 e = 1). { rewrite (IZR_Zpower radix2) by lia. rewrite <- bpow_plus. replace (- e + e)%Z with 0%Z by lia. reflexivity. }
    pose proof (bpow_gt_0 radix2 e) as Pe. split; nra.
Qed.
Notation numbers := (bare ["f(x)=x^2"; "g(x,y,z)=x+y*z"]).
Lemma numbers_live : lives numbers = true. Proof. vm_compute. reflexivity. Qed.
Lemma wide_parses : parses (state numbers) wide = true. Proof. vm_compute. reflexivity. Qed.
Lemma wide_constants : forallb in_range_b (constants (snd (tree_in (state numbers) wide))) = true. Proof. vm_compute. reflexivity. Qed.
Lemma wide_range : Forall plain_range (constants (snd (tree_in (state numbers) wide))).
Proof. apply Forall_forall. intros v I. apply in_range_ok. pose proof wide_constants as H. rewrite forallb_forall in H. exact (H v I). Qed.
Example C53_wide_text : text_of (tree_to_str printf_g false (snd (tree_in (state numbers) wide))) = str "f(0.1+12345.678)^2*g(9876543210,0.000125,a)".
Proof. vm_compute. reflexivity. Qed.
Example C23_wide := C23_session_numbers _ _ _ _ _ (bare_reached _ numbers_live) _ _ _ (tree_parsed _ _ wide_parses) wide_range.
(** A third has more than ten digits. *)
Definition third : double := ddiv (of_Z 1) (of_Z 3).
Example C53_third : plain_range third /\ printf_g third = str "0.3333333333" /\ strtod (printf_g third) <> Some third.
Proof. split; [apply in_range_ok; vm_compute; reflexivity|]. split; [vm_compute; reflexivity|vm_compute; discriminate]. Qed.
Example C53_tenth : ten_digit_number (/ 10) /\ / 10000 <= / 10 < 10000000000.
Proof. split; [exists 1%Z, (-1)%Z; split; [lia|change (bpow ten (-1)) with (/ 10); ring]|lra]. Qed.
Example C53_texts : printf_g (of_Z 42) = str "42" /\ printf_g (of_Z (-42)) = str "-42" /\ printf_g (of_Z (10 ^ 10)) = str "1e+10".
Proof. vm_compute. auto. Qed.
Print Assumptions C53_printed_partial.
Print Assumptions C53_numeral.
Print Assumptions C53_reread_partial.
Print Assumptions C53_exact.
Print Assumptions C53_integers.
Print Assumptions C53_negative.
Print Assumptions C53_special.
Print Assumptions C53_exponent.
Print Assumptions C53_refuted.
Print Assumptions C23_session_numbers.
Print Assumptions C23_session_exact.
Print Assumptions C77_numerals.
Print Assumptions C77_language.
Print Assumptions C77_figures.
Print Assumptions C77_names.
