(** Lemmas about the command line. *)
From Coq Require Import List Ascii String NArith ZArith Bool Lia Arith.
From Verif Require Import M_Base M_StringUtil M_Trie M_Tree M_Context M_Match M_ArithCtx M_Double M_Eval M_Simplify M_Session M_Main S_Util S_Session S_Main
  L_StringUtil L_Trie P_Util P_Session.
Import ListNotations.
Open Scope string_scope.
Open Scope list_scope.
Open Scope nat_scope.
Open Scope res_scope.

Definition switch_map : list (cstr * switch) := fst (map_run [] switch_calls).
Lemma switch_map_eq : switch_map =
  [(str "-c", SwCommands); (str "--commands", SwCommands); (str "-v", SwVersion); (str "--version", SwVersion); (str "-h", SwHelp); (str "--help", SwHelp);
   (str "-q", SwQuiet); (str "--quiet", SwQuiet); (str "-i", SwInteractive); (str "--interactive", SwInteractive)].
Proof. vm_compute. reflexivity. Qed.
Lemma calls_admissible : Forall op_admissible switch_calls.
Proof. repeat constructor; simpl; repeat match goal with |- Forall _ _ => constructor end; unfold admissible_char; cbn; lia. Qed.
Lemma find_asks : forall a sw, find_key a switch_map = Some sw <-> asks sw a.
Proof.
  intros a sw. rewrite switch_map_eq. split.
  - cbn [find_key]. do 10 match goal with |- context [streqb ?k a] => let E := fresh in destruct (streqb k a) eqn:E; [apply streqb_eq in E; subst a; let H := fresh in intro H; injection H as <-; cbn [asks]; auto|clear E] end. discriminate.
  - destruct sw; cbn [asks]; intros [->| ->]; vm_compute; reflexivity.
Qed.
Lemma find_none : forall a, find_key a switch_map = None <-> ~ a_switch a.
Proof.
  intros a. split.
  - intros H (sw & A). apply find_asks in A. congruence.
  - intros N. destruct (find_key a switch_map) as [sw|] eqn:E; auto. exfalso. apply N. exists sw. apply find_asks. auto.
Qed.
Lemma asks_one : forall a sw sw', asks sw a -> asks sw' a -> sw = sw'.
Proof. intros a sw sw' A B. apply find_asks in A. apply find_asks in B. congruence. Qed.
Lemma switches_ok : exists t, switches = Ok t /\ forall a, parse_arg t a = Ok (find_key a switch_map).
Proof.
  destruct (C04_trie_refines_map switch switch_calls calls_admissible) as (t & E & _ & H). exists t. split. { unfold switches. rewrite E. reflexivity. }
  intros a. specialize (H a). fold switch_map in H. unfold parse_arg. destruct (find_key a switch_map) as [sw|]. { rewrite H. reflexivity. }
  destruct (trie_contains t a) as [b o]. cbn [fst] in H. subst b. reflexivity.
Qed.

Definition all_flags (f : flags) (args : list cstr) (f' : flags) : Prop := forall sw, f' sw = true <-> f sw = true \/ given sw args.
Lemma given_nil : forall sw, ~ given sw []. Proof. intros sw (a & [] & _). Qed.
Lemma given_cons : forall sw a l, given sw (a :: l) <-> asks sw a \/ given sw l.
Proof. intros sw a l. split. { intros (x & [->|I] & A); auto. right. exists x. auto. } intros [A|(x & I & A)]; [exists a|exists x]; split; auto; [left|right]; auto. Qed.
Lemma given_app : forall sw l l', given sw (l ++ l') <-> given sw l \/ given sw l'.
Proof. intros sw l l'. induction l as [|a l IH]; cbn [app]. { split; auto. intros [H|H]; auto. apply given_nil in H. contradiction. } rewrite !given_cons, IH. tauto. Qed.
Lemma raise_spec : forall f sw x, raise f sw x = true <-> sw = x \/ f x = true.
Proof. intros f sw x. unfold raise. destruct sw, x; cbn [switch_eqb]; split; auto; try (intros [H|H]; [discriminate H|exact H]). Qed.

(** The loop over the arguments *)
Lemma arg_loop_spec : forall t, (forall a, parse_arg t a = Ok (find_key a switch_map)) -> forall args f,
  match arg_loop t f args with
  | Ok (inl (f', cmds)) => exists pre, command_line args pre cmds /\ Forall a_switch pre /\
      (forall sw, sw <> SwCommands -> f' sw = true <-> f sw = true \/ given sw pre)
  | Ok (inr a) => exists p1 p2 cmds, command_line args (p1 ++ a :: p2) cmds /\ Forall a_switch p1 /\ ~ a_switch a
  | _ => False
  end.
Proof.
  intros t T. induction args as [|a args IH]; intros f; cbn [arg_loop].
  - exists []. split; [constructor; apply given_nil|]. split; [constructor|]. intros sw _. split; auto. intros [H|H]; auto. apply given_nil in H. contradiction.
  - rewrite T. cbn [rbind]. destruct (find_key a switch_map) as [sw|] eqn:E.
    + pose proof (proj1 (find_asks _ _) E) as A. destruct (switch_eqb sw SwCommands) eqn:C.
      * assert (sw = SwCommands) by (destruct sw; auto; discriminate C). subst sw. exists []. split; [apply (cl_commands [] a args); [apply given_nil|auto]|].
        split; [constructor|]. intros sw Ns. rewrite raise_spec. split; [|intros [H|H]; auto; apply given_nil in H; contradiction]. intros [H|H]; [subst sw; contradiction|auto].
      * assert (Nc : ~ asks SwCommands a). { intro X. pose proof (asks_one _ _ _ A X). subst sw. discriminate C. }
        assert (CL : forall pre cmds, command_line args pre cmds -> command_line (a :: args) (a :: pre) cmds).
        { intros pre cmds H. inversion H; subst; [constructor|apply (cl_commands (a :: pre)); auto]; rewrite given_cons; tauto. }
        assert (G : match arg_loop t (raise f sw) args with
          | Ok (inl (f', cmds)) => exists pre, command_line (a :: args) pre cmds /\ Forall a_switch pre /\ (forall sw, sw <> SwCommands -> f' sw = true <-> f sw = true \/ given sw pre)
          | Ok (inr a0) => exists p1 p2 cmds, command_line (a :: args) (p1 ++ a0 :: p2) cmds /\ Forall a_switch p1 /\ ~ a_switch a0
          | _ => False end).
        { specialize (IH (raise f sw)). destruct (arg_loop t (raise f sw) args) as [[[f' cmds]|b]| |]; try contradiction.
          - destruct IH as (pre & H1 & H2 & H3). exists (a :: pre). split; auto. split; [constructor; auto; exists sw; auto|]. intros x Nx. rewrite H3 by auto. rewrite raise_spec, given_cons.
            split; [intros [[->|H]|H]; auto|]. intros [H|[H|H]]; auto. left. left. eapply asks_one; eauto.
          - destruct IH as (p1 & p2 & cmds & H1 & H2 & H3). exists (a :: p1), p2, cmds. split; [apply (CL _ _ H1)|]. split; auto. constructor; auto. exists sw. auto. }
        destruct sw; try exact G. discriminate C.
    + apply find_none in E. 
      assert (X : exists p2 cmds, command_line (a :: args) (a :: p2) cmds).
      { assert (Y : exists p2 cmds, command_line args p2 cmds).
        { clear. induction args as [|b args IH]. { exists [], None. constructor. apply given_nil. }
          destruct (find_key b switch_map) as [[| | | |]|] eqn:E; try (destruct IH as (p2 & cmds & H); exists (b :: p2), cmds;
            assert (Nb : ~ asks SwCommands b) by (intro X; apply find_asks in X; congruence);
            inversion H; subst; [constructor|apply (cl_commands (b :: p2)); auto]; rewrite given_cons; tauto).
          exists [], (Some args). apply (cl_commands []); [apply given_nil|]. apply find_asks. auto. }
        destruct Y as (p2 & cmds & H). exists p2, cmds. assert (Na : ~ asks SwCommands a) by (intro X; apply E; exists SwCommands; auto).
        inversion H; subst; [constructor|apply (cl_commands (a :: p2)); auto]; rewrite given_cons; tauto. }
      destruct X as (p2 & cmds & H). exists [], p2, cmds. cbn [app]. auto.
Qed.

(** A command line is read in one way. *)
Lemma command_line_fun : forall args p c p' c', command_line args p c -> command_line args p' c' -> p = p' /\ c = c'.
Proof.
  assert (X : forall pre pre' a a' cmds cmds', ~ given SwCommands pre -> ~ given SwCommands pre' -> asks SwCommands a -> asks SwCommands a' ->
    pre ++ a :: cmds = pre' ++ a' :: cmds' -> pre = pre' /\ cmds = cmds').
  { induction pre as [|x pre IH]; intros [|y pre'] a a' cmds cmds' N N' A A' E; cbn [app] in E.
    - injection E as _ ->. auto.
    - injection E as -> _. exfalso. apply N'. apply given_cons. auto.
    - injection E as -> _. exfalso. apply N. apply given_cons. auto.
    - injection E as -> E. rewrite given_cons in N, N'. destruct (IH pre' a a' cmds cmds') as [-> ->]; auto. }
  intros args p c p' c' H H'. inversion H; subst; inversion H'; subst; auto.
  - exfalso. match goal with K : ~ given SwCommands (_ ++ _) |- _ => apply K end. apply given_app. right. apply given_cons. auto.
  - exfalso. match goal with K : ~ given SwCommands (_ ++ _) |- _ => apply K end. apply given_app. right. apply given_cons. auto.
  - match goal with K : _ ++ _ = _ ++ _ |- _ => apply X in K; auto; destruct K; subst; auto end.
Qed.
Lemma first_unknown : forall p1 a p2 p1' a' p2', Forall a_switch p1 -> ~ a_switch a -> Forall a_switch p1' -> ~ a_switch a' -> p1 ++ a :: p2 = p1' ++ a' :: p2' -> a = a'.
Proof.
  induction p1 as [|x p1 IH]; intros a p2 [|y p1'] a' p2' F N F' N' E; cbn [app] in E.
  - congruence.
  - injection E as -> _. inversion F'; contradiction.
  - injection E as -> _. inversion F; contradiction.
  - injection E as -> E. inversion F; inversion F'; subst. eapply IH; eauto.
Qed.

(** ** Commands and lines *)
Section Runs.
Variable L : libm.
Variable fuel : nat.
Variable strtod : cstr -> option double.
Variable files : cstr -> option (list ascii).
Variable depth : nat.
Let exec := exec_command L fuel strtod files depth.
Lemma command_loop_ok : forall cs s k s' o, command_loop L fuel strtod files depth s k cs = Done (Ok (inl (s', o))) <-> exists o1, carried_out exec s cs s' o1 /\ o = map Showed o1.
Proof.
  induction cs as [|c cs IH]; intros s k s' o; cbn [command_loop].
  - split. { intro H. injection H as <- <-. exists []. split; [constructor|auto]. } intros (o1 & C & ->). inversion C; subst. reflexivity.
  - fold exec. split.
    + destruct (exec s c) as [[[s1 o1 [|]|o1 b1]| |]|] eqn:E; cbn [sbind]; try discriminate.
      destruct (command_loop L fuel strtod files depth s1 (S k) cs) as [[[[s2 o2]|[o2 b2]]| |]|] eqn:R; cbn [sbind]; try discriminate.
      intro H. injection H as <- <-. apply IH in R. destruct R as (o3 & C & ->). exists (o1 ++ o3). rewrite map_app. split; auto. econstructor; eauto.
    + intros (o0 & C & ->). inversion C as [|? ? ? s1 o1 ? o2 E C']; subst. rewrite E. cbn [sbind].
      assert (R : command_loop L fuel strtod files depth s1 (S k) cs = Done (Ok (inl (s', map Showed o2)))) by (apply IH; eauto).
      rewrite R. cbn [sbind]. rewrite map_app. reflexivity.
Qed.
Lemma command_loop_broken : forall cs s k o b, command_loop L fuel strtod files depth s k cs = Done (Ok (inr (o, b))) <->
  (exists before s1 o1 c behind s2 o2, cs = before ++ c :: behind /\ carried_out exec s before s1 o1 /\ exec s1 c = Done (Ok (Did s2 o2 false)) /\
     o = map Showed (o1 ++ o2) ++ [CommandFailed (k + List.length before)] /\ b = false) \/
  (exists before s1 o1 c behind o2, cs = before ++ c :: behind /\ carried_out exec s before s1 o1 /\ exec s1 c = Done (Ok (Quit o2 b)) /\ o = map Showed (o1 ++ o2)).
Proof.
  induction cs as [|c cs IH]; intros s k o b; cbn [command_loop].
  - split; [discriminate|]. intros [([|x p] & s1 & o1 & c & q & s2 & o2 & E & _)|([|x p] & s1 & o1 & c & q & o2 & E & _)]; discriminate E.
  - fold exec. split.
    + destruct (exec s c) as [[[s1 o1 [|]|o1 b1]| |]|] eqn:E; cbn [sbind]; try discriminate.
      * destruct (command_loop L fuel strtod files depth s1 (S k) cs) as [[[[s2 o2]|[o2 b2]]| |]|] eqn:R; cbn [sbind]; try discriminate.
        intro H. injection H as <- <-. apply IH in R. destruct R as [(p & s3 & o3 & d & q & s4 & o4 & -> & C & X & -> & ->)|(p & s3 & o3 & d & q & o4 & -> & C & X & ->)]; [left|right].
        -- exists (c :: p), s3, (o1 ++ o3), d, q, s4, o4. split; auto. split; [econstructor; eauto|]. split; auto. split; auto. rewrite !map_app, <- !app_assoc. cbn [List.length]. replace (k + S (List.length p)) with (S k + List.length p) by lia. auto.
        -- exists (c :: p), s3, (o1 ++ o3), d, q, o4. split; auto. split; [econstructor; eauto|]. split; auto. rewrite !map_app, <- !app_assoc. auto.
      * intro H. injection H as <- <-. left. exists [], s, [], c, cs, s1, o1. split; auto. split; [constructor|]. split; auto. cbn [List.length app]. rewrite Nat.add_0_r. auto.
      * intro H. injection H as <- <-. right. exists [], s, [], c, cs, o1. split; auto. split; [constructor|]. auto.
    + intros [(p & s3 & o3 & d & q & s4 & o4 & Ec & C & X & -> & ->)|(p & s3 & o3 & d & q & o4 & Ec & C & X & ->)].
      * destruct p as [|x p]; cbn [app] in Ec; injection Ec as -> ->.
        { inversion C; subst. rewrite X. cbn [sbind List.length app]. rewrite Nat.add_0_r. reflexivity. }
        inversion C as [|? ? ? s1 o1 ? o2 E C']; subst. rewrite E. cbn [sbind].
        assert (R : command_loop L fuel strtod files depth s1 (S k) (p ++ d :: q) = Done (Ok (inr (map Showed (o2 ++ o4) ++ [CommandFailed (S k + List.length p)], false)))).
        { apply IH. left. exists p, s3, o2, d, q, s4, o4. auto. }
        rewrite R. cbn [sbind]. rewrite !map_app, <- !app_assoc. cbn [List.length]. replace (k + S (List.length p)) with (S k + List.length p) by lia. reflexivity.
      * destruct p as [|x p]; cbn [app] in Ec; injection Ec as -> ->.
        { inversion C; subst. rewrite X. reflexivity. }
        inversion C as [|? ? ? s1 o1 ? o2 E C']; subst. rewrite E. cbn [sbind].
        assert (R : command_loop L fuel strtod files depth s1 (S k) (p ++ d :: q) = Done (Ok (inr (map Showed (o2 ++ o4), b)))).
        { apply IH. right. exists p, s3, o2, d, q, o4. auto. }
        rewrite R. cbn [sbind]. rewrite !map_app, <- !app_assoc. reflexivity.
Qed.
Lemma command_loop_broken1 : forall cs s o b, command_loop L fuel strtod files depth s 1 cs = Done (Ok (inr (o, b))) <-> broken_off exec s cs o b.
Proof.
  intros cs s o b. rewrite command_loop_broken. split.
  - intros [(p & s3 & o3 & d & q & s4 & o4 & -> & C & X & -> & ->)|(p & s3 & o3 & d & q & o4 & -> & C & X & ->)].
    + rewrite Nat.add_comm. econstructor; eauto.
    + eapply bo_quit; eauto.
  - intros B. destruct B as [? p s1 o1 c q s2 o2 C X|? p s1 o1 c q o2 ? C X].
    + left. exists p, s1, o1, c, q, s2, o2. rewrite (Nat.add_comm (List.length p) 1). auto 6.
    + right. exists p, s1, o1, c, q, o2. auto.
Qed.
Lemma read_input_ok : forall s ls o b, Forall text_line ls ->
  read_input L fuel strtod files depth s (text ls) = Done (Ok (o, b)) <-> exists o1, lines_read exec s ls o1 b /\ o = map Showed o1.
Proof.
  intros s ls o b F. unfold read_input. split.
  - destruct (process_input L fuel strtod files depth s (text ls)) as [[[s1 o1 b1|o1 b1]| |]|] eqn:E; cbn [sbind]; try discriminate; intro H; injection H as <- <-; exists o1; split; auto.
    + apply C52_lines_in_order in E; auto. econstructor; eauto.
    + apply C52_quit in E; auto. destruct E as (pre & l & post & s1 & o2 & b2 & -> & T & [(-> & -> & ->)|(N & K & o3 & X & ->)]); [eapply lr_quit; eauto|eapply lr_exit; eauto].
  - intros (o1 & R & ->). inversion R as [? ? s' ? ? T|? pre s1 ? ? post T|? pre s1 o2 b1 l post o3 ? T N K X]; subst.
    + apply C52_lines_in_order in T; auto. rewrite T. reflexivity.
    + assert (E : process_input L fuel strtod files depth s (text (pre ++ str "quit" :: post)) = Done (Ok (Quit o1 b))) by (apply C52_quit; auto; exists pre, (str "quit"), post, s1, o1, b; auto 9).
      rewrite E. reflexivity.
    + assert (E : process_input L fuel strtod files depth s (text (pre ++ l :: post)) = Done (Ok (Quit (o2 ++ o3) b))).
      { apply C52_quit; auto. exists pre, l, post, s1, o2, b1. split; auto. split; auto. right. split; auto. split; auto. exists o3. auto. }
      rewrite E. reflexivity.
Qed.
End Runs.
