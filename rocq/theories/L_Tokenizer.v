(** Proofs about the tokenizer. *)
From Coq Require Import List Ascii String NArith ZArith Bool Lia Arith.
From Verif Require Import M_Base M_StringUtil M_Tokenizer S_Engine.
Import ListNotations.
Open Scope nat_scope.
Open Scope res_scope.

Lemma code_nat : forall c, code c = N.of_nat (nat_of_ascii c).
Proof. intros. unfold code, nat_of_ascii. rewrite N2Nat.id. reflexivity. Qed.

Lemma ceqb_nat : forall a b, ceqb a b = (nat_of_ascii a =? nat_of_ascii b).
Proof.
  intros. unfold ceqb. destruct (Ascii.eqb_spec a b).
  - subst. symmetry. apply Nat.eqb_refl.
  - symmetry. apply Nat.eqb_neq. intros H. apply n.
    rewrite <- (ascii_nat_embedding a), <- (ascii_nat_embedding b), H. reflexivity.
Qed.

Lemma range_spec : forall c lo hi,
  ((code lo <=? code c)%N && (code c <=? code hi)%N)%bool = true <->
  in_range c (nat_of_ascii lo) (nat_of_ascii hi).
Proof.
  intros. rewrite !code_nat. unfold in_range. rewrite andb_true_iff, !N.leb_le. lia.
Qed.

Lemma is_digit_spec : forall c, is_digit c = true <-> digit_char c.
Proof.
  intros. unfold is_digit, digit_char. rewrite orb_true_iff, range_spec, ceqb_nat, Nat.eqb_eq.
  reflexivity.
Qed.
Lemma is_letter_spec : forall c, is_letter c = true <-> letter_char c.
Proof.
  intros. unfold is_letter, letter_char. rewrite !orb_true_iff, !range_spec, !ceqb_nat, !Nat.eqb_eq.
  change (nat_of_ascii "A") with 65. change (nat_of_ascii "Z") with 90.
  change (nat_of_ascii "a") with 97. change (nat_of_ascii "z") with 122.
  change (nat_of_ascii "_") with 95. change (nat_of_ascii "[") with 91. change (nat_of_ascii "]") with 93.
  tauto.
Qed.
Lemma digit_not_letter : forall c, digit_char c -> ~ letter_char c.
Proof. unfold digit_char, letter_char, in_range. intros; lia. Qed.

Lemma char_state_cases : forall c,
  (char_state c = TLetter /\ letter_char c) \/ (char_state c = TDigit /\ digit_char c)
  \/ (char_state c = TOther /\ ~ letter_char c /\ ~ digit_char c).
Proof.
  intros c. unfold char_state.
  destruct (is_digit c) eqn:D.
  - right; left. split; auto. apply is_digit_spec; auto.
  - destruct (is_letter c) eqn:L.
    + left. split; auto. apply is_letter_spec; auto.
    + right; right. split; auto. split; intros H.
      * apply is_letter_spec in H; congruence.
      * apply is_digit_spec in H; congruence.
Qed.

Section T.
Variable kwlen : cstr -> nat.
Variable kw : cstr -> Prop.
Hypothesis kw_spec : forall s, kwlen s <= List.length s
  /\ (0 < kwlen s -> kw (firstn (kwlen s) s))
  /\ (forall j, kwlen s < j <= List.length s -> ~ kw (firstn j s)).
Hypothesis kw_nodigit : forall k, kw k -> ~ starts_in digit_char k.

Definition final fuel input st start i acc :=
  '(start, acc) <- tok_loop kwlen fuel input st start i acc ;;
  push_token input start (List.length input) acc.

Lemma nth_app : forall (A : Type) (a b : list A), nth_error (a ++ b) (List.length a) = nth_error b 0.
Proof. intros. rewrite nth_error_app2 by lia. rewrite Nat.sub_diag. reflexivity. Qed.
Lemma skipn_app_len : forall (A : Type) (a b : list A), skipn (List.length a) (a ++ b) = b.
Proof. intros. rewrite skipn_app, skipn_all, Nat.sub_diag. reflexivity. Qed.
Lemma firstn_app_len : forall (A : Type) (a b : list A), firstn (List.length a) (a ++ b) = a.
Proof. intros. rewrite firstn_app, firstn_all, Nat.sub_diag. simpl. apply app_nil_r. Qed.

Lemma push_ok : forall pre p rest acc, p <> [] ->
  push_token (pre ++ p ++ rest) (List.length pre) (List.length pre + List.length p) acc = Ok (acc ++ [p]).
Proof.
  intros. unfold push_token.
  assert (0 < List.length p) by (destruct p; [congruence|simpl; lia]).
  destruct (Nat.ltb_spec (List.length pre + List.length p) (List.length pre)); [lia|].
  destruct (Nat.eqb_spec (List.length pre + List.length p) (List.length pre)); [lia|].
  destruct (Nat.ltb_spec (List.length (pre ++ p ++ rest)) (List.length pre + List.length p)).
  { rewrite !app_length in *. lia. }
  replace (List.length pre + List.length p - List.length pre) with (List.length p) by lia.
  rewrite skipn_app_len, firstn_app_len. reflexivity.
Qed.
Lemma push_empty : forall input i acc, push_token input i i acc = Ok acc.
Proof. intros. unfold push_token. rewrite Nat.ltb_irrefl, Nat.eqb_refl. reflexivity. Qed.

Lemma kw_digit : forall c s, digit_char c -> kwlen (c :: s) = 0.
Proof.
  intros c s Hd. destruct (kw_spec (c :: s)) as (H1 & H2 & _).
  destruct (kwlen (c :: s)) as [|k] eqn:E; auto. exfalso.
  apply (kw_nodigit (firstn (S k) (c :: s))).
  - apply H2. lia.
  - exists c, (firstn k s). auto.
Qed.

Definition class (st : tokstate) (c : ascii) : Prop :=
  match st with TLetter => letter_char c | TDigit => digit_char c | _ => False end.

(** what the tokens behind a pending piece [p] in state [st] look like *)
Definition goes_on st p rest ts : Prop :=
  match st with
  | TNew => p = [] /\ lexed kw rest ts
  | TOther => exists ts', ts = p :: ts' /\ lexed kw rest ts'
  | _ => exists run rest' ts', rest = run ++ rest' /\ Forall (class st) run
         /\ ~ starts_in (class st) rest' /\ ts = (p ++ run) :: ts' /\ lexed kw rest' ts'
  end.

Lemma run_end : forall st c rest, (st = TLetter \/ st = TDigit) -> char_state c <> st -> ~ starts_in (class st) (c :: rest).
Proof.
  intros st c rest Hst Hc (d & r & E & Hcl). injection E as <- <-.
  destruct (char_state_cases c) as [(A & B)|[(A & B)|(A & B & D)]]; destruct Hst; subst st; simpl in *; try congruence.
  all: solve [exact (digit_not_letter _ Hcl B) | exact (digit_not_letter _ B Hcl) | auto].
Qed.

Lemma final_spec : forall n rest, List.length rest <= n -> forall fuel, List.length rest <= fuel ->
  forall pre p st acc,
  (st = TNew <-> p = []) ->
  (st = TOther -> List.length p = 1) ->
  exists ts, final fuel (pre ++ p ++ rest) st (List.length pre) (List.length pre + List.length p) acc = Ok (acc ++ ts)
    /\ goes_on st p rest ts.
Proof.
  induction n as [|n IH]; intros rest Hn fuel Hf pre p st acc Hst Hot; unfold final.
  - destruct rest; [|simpl in Hn; lia].
    assert (E : nth_error (pre ++ p ++ []) (List.length pre + List.length p) = None).
    { apply nth_error_None. rewrite !app_length. simpl. lia. }
    destruct fuel; cbn [tok_loop]; rewrite E; cbn [rbind];
      (destruct p as [|x p'];
       [ replace (List.length (pre ++ [] ++ [])) with (List.length pre) by (rewrite app_length; simpl; lia);
         rewrite push_empty; exists []; rewrite app_nil_r; split; auto;
         destruct st; simpl; try (exfalso; destruct Hst as [_ Hst]; specialize (Hst eq_refl); discriminate);
         split; auto; constructor
       | replace (List.length (pre ++ (x :: p') ++ [])) with (List.length pre + List.length (x :: p'))
           by (rewrite !app_length; simpl; lia);
         rewrite push_ok by discriminate; eexists; split; [reflexivity|];
         destruct st; simpl;
         [ destruct Hst as [Hst _]; specialize (Hst eq_refl); discriminate
         | exists [], [], []; repeat split; auto; [intros (? & ? & ? & ?); discriminate|rewrite app_nil_r; auto|constructor]
         | exists [], [], []; repeat split; auto; [intros (? & ? & ? & ?); discriminate|rewrite app_nil_r; auto|constructor]
         | exists []; split; auto; constructor ] ]).
  - destruct rest as [|c rest]; [apply (IH [] ltac:(simpl; lia) fuel Hf pre p st acc Hst Hot)|].
    destruct fuel as [|fuel]; [simpl in Hf; lia|].
    simpl in Hn, Hf.
    assert (E : nth_error (pre ++ p ++ c :: rest) (List.length pre + List.length p) = Some c).
    { rewrite app_assoc, <- app_length, nth_app. reflexivity. }
    cbn [tok_loop]. rewrite E.
    (* the part behind the end-of-token check, at a fresh position *)
    assert (Fresh : forall pre acc,
      exists ts, ('(start, acc) <-
        (let k := if tokstate_eqb (char_state c) TLetter then 0 else kwlen (skipn (List.length pre) (pre ++ c :: rest)) in
         if 0 <? k then
           acc2 <- push_token (pre ++ c :: rest) (List.length pre) (List.length pre + k) acc ;;
           tok_loop kwlen fuel (pre ++ c :: rest) TNew (List.length pre + k) (List.length pre + k - 1 + 1) acc2
         else tok_loop kwlen fuel (pre ++ c :: rest) (char_state c) (List.length pre) (List.length pre + 1) acc) ;;
        push_token (pre ++ c :: rest) start (List.length (pre ++ c :: rest)) acc) = Ok (acc ++ ts)
        /\ lexed kw (c :: rest) ts).
    { clear pre p st acc Hst Hot E. intros pre acc. cbv zeta.
      rewrite skipn_app_len.
      assert (NoKw : char_state c <> TNew -> lexed kw [] [] ->
        (if tokstate_eqb (char_state c) TLetter then 0 else kwlen (c :: rest)) = 0 ->
        exists ts, ('(start, acc) <- tok_loop kwlen fuel (pre ++ c :: rest) (char_state c) (List.length pre) (List.length pre + 1) acc ;;
          push_token (pre ++ c :: rest) start (List.length (pre ++ c :: rest)) acc) = Ok (acc ++ ts)
          /\ goes_on (char_state c) [c] rest ts).
      { intros Hne _ _.
        destruct (IH rest ltac:(lia) fuel ltac:(lia) pre [c] (char_state c) acc) as (ts & E1 & E2).
        - split; [intros; congruence|discriminate].
        - reflexivity.
        - exists ts. split; auto. }
      destruct (char_state_cases c) as [(A & B)|[(A & B)|(A & B & D)]]; rewrite A in *; cbn [tokstate_eqb] in *.
      - destruct NoKw as (ts & E1 & run & rest' & ts' & E2 & F & Ns & E3 & L); [discriminate|constructor|reflexivity|].
        cbn [Nat.ltb Nat.leb]. exists ts. split; [exact E1|]. subst. simpl.
        apply (lex_letters kw (c :: run)); try discriminate; try (constructor; auto); auto.
      - rewrite kw_digit in * by auto.
        destruct NoKw as (ts & E1 & run & rest' & ts' & E2 & F & Ns & E3 & L); [discriminate|constructor|reflexivity|].
        cbn [Nat.ltb Nat.leb]. exists ts. split; [exact E1|]. subst. simpl.
        apply (lex_digits kw (c :: run)); try discriminate; try (constructor; auto); auto.
      - destruct (kw_spec (c :: rest)) as (H1 & H2 & H3).
        destruct (Nat.ltb_spec 0 (kwlen (c :: rest))) as [Hk|Hk].
        + destruct (kwlen (c :: rest)) as [|k] eqn:Ek; [lia|].
          set (kk := firstn k rest). set (r := skipn k rest).
          assert (Er : rest = kk ++ r) by (symmetry; apply firstn_skipn).
          assert (Lk : List.length kk = k) by (unfold kk; apply firstn_length_le; simpl in H1; lia).
          pose proof (push_ok pre (c :: kk) r acc ltac:(discriminate)) as P.
          replace (pre ++ (c :: kk) ++ r) with (pre ++ c :: rest) in P by (rewrite Er; reflexivity).
          replace (List.length (c :: kk)) with (S k) in P by (simpl; lia).
          rewrite P. cbn [rbind].
          replace (List.length pre + S k - 1 + 1) with (List.length pre + S k) by lia.
          destruct (IH r) with (fuel := fuel) (pre := pre ++ c :: kk) (p := @nil ascii) (st := TNew) (acc := acc ++ [c :: kk])
            as (ts & E1 & _ & E2).
          * unfold r. rewrite skipn_length. lia.
          * unfold r. rewrite skipn_length. lia.
          * tauto.
          * discriminate.
          * exists ((c :: kk) :: ts). split.
            -- unfold final in E1.
               replace ((pre ++ c :: kk) ++ [] ++ r) with (pre ++ c :: rest) in E1
                 by (rewrite Er; rewrite <- app_assoc; reflexivity).
               replace (List.length (pre ++ c :: kk)) with (List.length pre + S k) in E1
                 by (rewrite app_length; simpl; lia).
               replace (List.length pre + S k + List.length (@nil ascii)) with (List.length pre + S k) in E1 by (simpl; lia).
               rewrite E1. rewrite <- app_assoc. reflexivity.
            -- rewrite Er. apply lex_keyword; auto.
               split; [exists r; reflexivity|]. split; [discriminate|].
               replace (firstn (S k) (c :: rest)) with (c :: kk) in H2 by reflexivity.
               split; [apply H2; lia|].
               intros k' r' Ek' Hkw Hne. simpl List.length. rewrite Lk.
               destruct (le_lt_dec (List.length k') (S k)) as [|Hlt]; auto. exfalso.
               apply (H3 (List.length k')).
               ++ split; [lia|]. rewrite Er. simpl in Ek'. rewrite Ek'. rewrite app_length. lia.
               ++ rewrite Er. simpl in Ek'. rewrite Ek', firstn_app_len. auto.
        + destruct NoKw as (ts & E1 & ts' & E3 & L); [discriminate|constructor|lia|].
          exists ts. split; auto. subst ts. apply lex_other; auto.
          intros k r Ekr Hne Hkw. apply (H3 (List.length k)).
          * replace (List.length (c :: rest)) with (List.length (k ++ r)) by (rewrite Ekr; reflexivity).
            rewrite app_length. destruct k; [congruence|simpl List.length in *; lia].
          * rewrite Ekr, firstn_app_len. auto. }
    destruct st.
    + (* TNew *)
      assert (p = []) by tauto. subst p. cbn [tokstate_eqb negb andb rbind].
      destruct (Fresh pre acc) as (ts & E1 & L). exists ts. split; [|split; auto].
      simpl app in *. simpl List.length in *. rewrite Nat.add_0_r in *. exact E1.
    + (* TLetter *)
      cbn [tokstate_eqb negb andb].
      assert (Hp : p <> []) by (intros ->; destruct Hst as [_ Hst]; specialize (Hst eq_refl); discriminate).
      destruct (char_state c) eqn:Ec; cbn [tokstate_eqb negb orb].
      * exfalso. destruct (char_state_cases c) as [(A & B)|[(A & B)|(A & B & D)]]; congruence.
      * cbn [rbind]. cbn [Nat.ltb Nat.leb].
        destruct (IH rest ltac:(lia) fuel ltac:(lia) pre (p ++ [c]) TLetter acc) as (ts & E1 & run & rest' & ts' & E2 & F & Ns & E3 & L).
        { split; [discriminate|]. intros Hc. destruct p; discriminate. }
        { discriminate. }
        exists ts. split.
        -- unfold final in E1. rewrite <- !app_assoc in E1. simpl app in E1.
           rewrite app_length in E1. simpl List.length in E1. rewrite Nat.add_assoc in E1. exact E1.
        -- exists (c :: run), rest', ts'. subst. repeat split; auto.
           ++ constructor; auto. destruct (char_state_cases c) as [(A & B)|[(A & B)|(A & B & D)]]; try congruence. exact B.
           ++ rewrite <- app_assoc. reflexivity.
      * rewrite push_ok by auto. cbn [rbind].
        destruct (Fresh (pre ++ p) (acc ++ [p])) as (ts & E1 & L).
        exists (p :: ts). split.
        -- rewrite <- app_assoc in E1. rewrite app_length in E1. rewrite <- app_assoc in E1. exact E1.
        -- exists [], (c :: rest), ts. repeat split; auto.
           ++ apply run_end; auto. congruence.
           ++ rewrite app_nil_r. reflexivity.
      * rewrite push_ok by auto. cbn [rbind].
        destruct (Fresh (pre ++ p) (acc ++ [p])) as (ts & E1 & L).
        exists (p :: ts). split.
        -- rewrite <- app_assoc in E1. rewrite app_length in E1. rewrite <- app_assoc in E1. exact E1.
        -- exists [], (c :: rest), ts. repeat split; auto.
           ++ apply run_end; auto. congruence.
           ++ rewrite app_nil_r. reflexivity.
    + (* TDigit *)
      cbn [tokstate_eqb negb andb].
      assert (Hp : p <> []) by (intros ->; destruct Hst as [_ Hst]; specialize (Hst eq_refl); discriminate).
      destruct (char_state c) eqn:Ec; cbn [tokstate_eqb negb orb].
      * exfalso. destruct (char_state_cases c) as [(A & B)|[(A & B)|(A & B & D)]]; congruence.
      * rewrite push_ok by auto. cbn [rbind].
        destruct (Fresh (pre ++ p) (acc ++ [p])) as (ts & E1 & L).
        exists (p :: ts). split.
        -- rewrite <- app_assoc in E1. rewrite app_length in E1. rewrite <- app_assoc in E1. exact E1.
        -- exists [], (c :: rest), ts. repeat split; auto.
           ++ apply run_end; auto. congruence.
           ++ rewrite app_nil_r. reflexivity.
      * cbn [rbind].
        assert (Hd : digit_char c).
        { destruct (char_state_cases c) as [(A & B)|[(A & B)|(A & B & D)]]; try exact B; congruence. }
        replace (skipn (List.length pre + List.length p) (pre ++ p ++ c :: rest)) with (c :: rest)
          by (rewrite app_assoc, <- app_length, skipn_app_len; reflexivity).
        rewrite kw_digit by auto. cbn [Nat.ltb Nat.leb].
        destruct (IH rest ltac:(lia) fuel ltac:(lia) pre (p ++ [c]) TDigit acc) as (ts & E1 & run & rest' & ts' & E2 & F & Ns & E3 & L).
        { split; [discriminate|]. intros Hc. destruct p; discriminate. }
        { discriminate. }
        exists ts. split.
        -- unfold final in E1. rewrite <- !app_assoc in E1. simpl app in E1.
           rewrite app_length in E1. simpl List.length in E1. rewrite Nat.add_assoc in E1. exact E1.
        -- exists (c :: run), rest', ts'. subst. repeat split; auto.
           rewrite <- app_assoc. reflexivity.
      * rewrite push_ok by auto. cbn [rbind].
        destruct (Fresh (pre ++ p) (acc ++ [p])) as (ts & E1 & L).
        exists (p :: ts). split.
        -- rewrite <- app_assoc in E1. rewrite app_length in E1. rewrite <- app_assoc in E1. exact E1.
        -- exists [], (c :: rest), ts. repeat split; auto.
           ++ apply run_end; auto. congruence.
           ++ rewrite app_nil_r. reflexivity.
    + (* TOther *)
      assert (Hp : p <> []) by (intros ->; destruct Hst as [_ Hst]; specialize (Hst eq_refl); discriminate).
      cbn [negb andb]. replace (negb (tokstate_eqb TOther TNew) && (negb (tokstate_eqb (char_state c) TOther) || tokstate_eqb (char_state c) TOther))%bool
        with true by (destruct (char_state c); reflexivity).
      rewrite push_ok by auto. cbn [rbind].
      destruct (Fresh (pre ++ p) (acc ++ [p])) as (ts & E1 & L).
      exists (p :: ts). split.
      * rewrite <- app_assoc in E1. rewrite app_length in E1. rewrite <- app_assoc in E1. exact E1.
      * exists ts. auto.
Qed.

Theorem tokenize_lexed : forall input, exists ts, tokenize kwlen input = Ok ts /\ lexed kw input ts.
Proof.
  intros input.
  destruct (final_spec (List.length input) input (le_n _) (List.length input) (le_n _) [] [] TNew [])
    as (ts & E & _ & L).
  - tauto.
  - discriminate.
  - exists ts. split; auto.
Qed.
End T.

Lemma lexed_concat : forall kw input ts, lexed kw input ts -> List.concat ts = input /\ Forall (fun t => t <> []) ts.
Proof.
  induction 1; simpl.
  - auto.
  - destruct IHlexed as [-> F]. split; auto.
  - destruct IHlexed as [-> F]. split; auto.
  - destruct IHlexed as [-> F]. split; auto. constructor; auto. discriminate.
  - destruct IHlexed as [-> F]. split; auto. constructor; auto. discriminate.
Qed.

(** The cutting is unique. *)
Lemma run_unique : forall (P : ascii -> Prop) a b a' b', Forall P a -> Forall P a' ->
  ~ starts_in P b -> ~ starts_in P b' -> a ++ b = a' ++ b' -> a = a' /\ b = b'.
Proof.
  induction a as [|x a IH]; intros b a' b' F F' N N' E; destruct a' as [|y a']; simpl in *.
  - auto.
  - exfalso. apply N. inversion F'; subst. exists y, (a' ++ b'). auto.
  - exfalso. apply N'. inversion F; subst. exists x, (a ++ b). auto.
  - injection E as <- E. inversion F; inversion F'; subst.
    destruct (IH b a' b') as [-> ->]; auto.
Qed.

Lemma app_len_eq : forall (A : Type) (a b a' b' : list A), a ++ b = a' ++ b' -> List.length a = List.length a' ->
  a = a' /\ b = b'.
Proof.
  induction a as [|x a IH]; intros b a' b' E L; destruct a'; simpl in *; try discriminate; auto.
  injection E as <- E. destruct (IH b a' b' E) as [-> ->]; auto.
Qed.

Lemma lexed_det : forall (kw : cstr -> Prop), (forall k, kw k -> ~ starts_in digit_char k) ->
  forall input ts, lexed kw input ts -> forall ts', lexed kw input ts' -> ts = ts'.
Proof.
  intros kw Hd input ts H. induction H as [|w rest ts Hne F N L IH|w rest ts Hne F N L IH
    |c k rest ts Hl Hk L IH|c rest ts Hl Hdg Hno L IH]; intros ts' H'.
  - inversion H'; subst; auto; try (destruct w; [congruence|discriminate]).
  - remember (w ++ rest) as i eqn:E.
    destruct w as [|x w]; [congruence|].
    destruct H' as [|w' rest' ts2 Hne' F' N' L'|w' rest' ts2 Hne' F' N' L'
      |c k rest' ts2 Hl' Hk' L'|c rest' ts2 Hl' Hdg' Hno' L'].
    + discriminate.
    + destruct (run_unique _ _ _ _ _ F' F N' N E) as [-> ->]. f_equal; auto.
    + exfalso. destruct w' as [|y w']; [congruence|]. inversion E; subst. inversion F; inversion F'; subst.
      eapply digit_not_letter; eauto.
    + exfalso. inversion E; subst. inversion F; subst; auto.
    + exfalso. inversion E; subst. inversion F; subst; auto.
  - remember (w ++ rest) as i eqn:E.
    destruct w as [|x w]; [congruence|].
    destruct H' as [|w' rest' ts2 Hne' F' N' L'|w' rest' ts2 Hne' F' N' L'
      |c k rest' ts2 Hl' Hk' L'|c rest' ts2 Hl' Hdg' Hno' L'].
    + discriminate.
    + exfalso. destruct w' as [|y w']; [congruence|]. inversion E; subst. inversion F; inversion F'; subst.
      eapply digit_not_letter; eauto.
    + destruct (run_unique _ _ _ _ _ F' F N' N E) as [-> ->]. f_equal; auto.
    + exfalso. inversion E; subst. inversion F; subst. destruct Hk' as (_ & _ & Hkw & _).
      apply (Hd _ Hkw). exists x, k. auto.
    + exfalso. inversion E; subst. inversion F; subst; auto.
  - remember (c :: k ++ rest) as i eqn:E.
    destruct H' as [|w' rest' ts2 Hne' F' N' L'|w' rest' ts2 Hne' F' N' L'
      |c' k' rest' ts2 Hl' Hk' L'|c' rest' ts2 Hl' Hdg' Hno' L'].
    + discriminate.
    + exfalso. destruct w' as [|y w']; [congruence|]. inversion E; subst. inversion F'; subst; auto.
    + exfalso. destruct w' as [|y w']; [congruence|]. inversion E; subst. inversion F'; subst.
      destruct Hk as (_ & _ & Hkw & _). apply (Hd _ Hkw). exists c, k. auto.
    + destruct Hk as (_ & Hne1 & Hkw1 & Hm1). destruct Hk' as (_ & Hne2 & Hkw2 & Hm2).
      pose proof (Hm1 (c' :: k') rest' eq_refl Hkw2 Hne2) as A1.
      pose proof (Hm2 (c :: k) rest E Hkw1 Hne1) as A2.
      change (c' :: k' ++ rest') with ((c' :: k') ++ rest') in E.
      change (c :: k ++ rest) with ((c :: k) ++ rest) in E.
      destruct (app_len_eq _ _ _ _ _ E) as [E1 ->]; [lia|]. inversion E1; subst. f_equal; auto.
    + exfalso. destruct Hk as (_ & Hne1 & Hkw1 & Hm1). eapply Hno'; [|eassumption|eassumption].
      rewrite E. reflexivity.
  - remember (c :: rest) as i eqn:E.
    destruct H' as [|w' rest' ts2 Hne' F' N' L'|w' rest' ts2 Hne' F' N' L'
      |c' k' rest' ts2 Hl' Hk' L'|c' rest' ts2 Hl' Hdg' Hno' L'].
    + discriminate.
    + exfalso. destruct w' as [|y w']; [congruence|]. inversion E; subst. inversion F'; subst; auto.
    + exfalso. destruct w' as [|y w']; [congruence|]. inversion E; subst. inversion F'; subst; auto.
    + exfalso. destruct Hk' as (_ & Hne1 & Hkw1 & Hm1). eapply Hno; [|eassumption|eassumption].
      reflexivity.
    + inversion E; subst. f_equal; auto.
Qed.
