(** C71: the program from the command line to the exit status. *)
From Coq Require Import List Ascii String NArith ZArith Bool Lia Arith.
From Verif Require Import M_Base M_StringUtil M_Trie M_Tree M_Context M_Match M_ArithCtx M_Double M_Eval M_Simplify M_Session M_Main S_Util S_Session S_Main
  L_StringUtil L_Trie L_Main P_Util P_Session P_Simplify M_Strtod.
Import ListNotations.
Open Scope string_scope.
Open Scope list_scope.
Open Scope nat_scope.
Open Scope res_scope.

(** The session a program starts in (with the messages about its rules) *)
Definition starts strtod files path rand (s : session) (o : list said) : Prop := start strtod files path rand = Ok (s, o).
Theorem C71_start : forall strtod files path rand s o, starts strtod files path rand s o ->
  init_commands strtod files path rand = Ok s /\ (o = [] <-> ss_simp s <> None) /\ (o = [] \/ o = [Showed SError]).
Proof.
  intros sd files path rand s o. unfold starts, start, init_commands. generalize get_arith_ctx init_propositional_ctx. intros rg rp.
  destruct rg as [g| |]; cbn [rbind]; try discriminate. destruct rp as [pc| |]; cbn [rbind]; try discriminate.
  destruct (init_simplification sd g pc (files path)) as [[| |sm n]| |]; cbn [rbind]; try discriminate;
    intro H; injection H as <- <-; (split; [reflexivity|]); cbn [ss_simp]; (split; [split; congruence|auto]).
Qed.

(** What the program writes and its exit status are exactly those of the specification, for every command line and every input. *)
Theorem C71_program : forall L fuel strtod files depth path rand args tty ls o b, Forall text_line ls ->
  main L fuel strtod files depth path rand args tty (text ls) = Done (Ok (o, b)) <->
  outcome (exec_command L fuel strtod files depth) (starts strtod files path rand) tty ls args o b.
Proof.
  intros L fuel sd files depth path rand args tty ls o b F. unfold main. destruct switches_ok as (t & E & T). rewrite E. cbn [rbind].
  pose proof (arg_loop_spec t T args no_flags) as A. unfold of_res. destruct (arg_loop t no_flags args) as [[[f cmds]|a]| |]; try contradiction; cbn [sbind].
  2:{ destruct A as (p1 & p2 & cmds & C & K & N). split. { intro H. injection H as <- <-. econstructor; eauto. }
      intros O. assert (X : forall pre c, command_line args pre c -> Forall a_switch pre -> False).
      { intros pre c C' K'. destruct (command_line_fun _ _ _ _ _ C C') as [<- _]. apply Forall_app in K'. destruct K' as [_ K']. inversion K'; contradiction. }
      destruct O as [? p1' a' p2' c' C' K' N'| | | | | |]; try (exfalso; eapply X; eauto; fail).
      destruct (command_line_fun _ _ _ _ _ C C') as [Ep _]. rewrite (first_unknown _ _ _ _ _ _ K N K' N' Ep). reflexivity. }
  destruct A as (pre & C & K & Fl). 
  assert (Fl' : forall sw, sw <> SwCommands -> f sw = true <-> given sw pre). { intros sw N. rewrite (Fl sw N). unfold no_flags. split; auto. intros [H|H]; auto. discriminate H. }
  clear Fl. assert (U : forall p c, command_line args p c -> p = pre /\ c = cmds) by (intros p c C'; eapply command_line_fun; eauto).
  assert (UN : forall p1 a p2 c, command_line args (p1 ++ a :: p2) c -> ~ a_switch a -> False).
  { intros p1 a p2 c C' N. destruct (U _ _ C') as [<- _]. apply Forall_app in K. destruct K as [_ K]. inversion K; contradiction. }
  assert (Gr : forall g, greeting tty pre g <-> g = if negb (f SwQuiet) && tty then [Out (COPYRIGHT_NOTICE ++ WARRANTY_NOTICE)] else []).
  { intros g. pose proof (Fl' SwQuiet ltac:(discriminate)) as Q. unfold greeting. destruct (f SwQuiet), tty; cbn [negb andb]; split; intro H.
    all: try (destruct H as [(H1 & H2 & H3)|([H1|H1] & H2)]; auto; try discriminate; exfalso; try (apply H2; apply Q; reflexivity); try (apply Q in H1; discriminate)).
    all: try (right; split; [|exact H]; auto; right; apply Q; reflexivity).
    left. split; auto. split; auto. intro X. apply Q in X. discriminate. }
  destruct (f SwHelp) eqn:Hh.
  { apply Fl' in Hh; [|discriminate]. split. { intro H. injection H as <- <-. eapply oc_help; eauto. }
    intros O. destruct O as [? p1 a p2 c C' K' N'|? p c C' K' G'|? p c C' K' N' G'|? p g s o0 o b C' K' N'|? p c s o0 s1 o1 C' K' N'|? p c g s o0 o b C' K' N'|? p c g s o0 s1 o1 o b C' K' N'];
      try (exfalso; eapply UN; eauto; fail); try reflexivity; exfalso; destruct (U _ _ C') as [-> _]; contradiction. }
  assert (Nh : ~ given SwHelp pre). { intro X. apply Fl' in X; [congruence|discriminate]. } clear Hh.
  destruct (f SwVersion) eqn:Hv.
  { apply Fl' in Hv; [|discriminate]. split. { intro H. injection H as <- <-. eapply oc_version; eauto. }
    intros O. destruct O as [? p1 a p2 c C' K' N'|? p c C' K' G'|? p c C' K' N' G'|? p g s o0 o b C' K' N' V'|? p c s o0 s1 o1 C' K' N' V'|? p c g s o0 o b C' K' N' V'|? p c g s o0 s1 o1 o b C' K' N' V'];
      try (exfalso; eapply UN; eauto; fail); try reflexivity; exfalso; destruct (U _ _ C') as [-> _]; contradiction. }
  assert (Nv : ~ given SwVersion pre). { intro X. apply Fl' in X; [congruence|discriminate]. } clear Hv.
  pose proof (Fl' SwInteractive ltac:(discriminate)) as Fi.
  assert (O1 : outcome (exec_command L fuel sd files depth) (starts sd files path rand) tty ls args o b <->
    exists s o0, start sd files path rand = Ok (s, o0) /\
    match cmds with
    | None => exists g o1, greeting tty pre g /\ lines_read (exec_command L fuel sd files depth) s ls o1 b /\ o = g ++ o0 ++ map Showed o1
    | Some cs => exists g, (given SwInteractive pre /\ greeting tty pre g \/ ~ given SwInteractive pre /\ g = []) /\
       ((exists o1, broken_off (exec_command L fuel sd files depth) s cs o1 b /\ o = g ++ o0 ++ o1) \/
        (exists s1 o1, carried_out (exec_command L fuel sd files depth) s cs s1 o1 /\
          ((~ given SwInteractive pre /\ o = g ++ o0 ++ map Showed o1 /\ b = true) \/
           (given SwInteractive pre /\ exists o2, lines_read (exec_command L fuel sd files depth) s1 ls o2 b /\ o = g ++ o0 ++ map Showed (o1 ++ o2)))))
    end).
  { split.
    - intros O. destruct O as [? p1 a p2 c C' K' N'|? p c C' K' G'|? p c C' K' N' G'|? p g s o0 o b C' K' N' V' Gr' S' R'|? p c s o0 s1 o1 C' K' N' V' I' S' R'|? p c g s o0 o b C' K' N' V' I' S' R'|? p c g s o0 s1 o1 o b C' K' N' V' I' Gr' S' R' R2'];
        try (exfalso; eapply UN; eauto; fail); destruct (U _ _ C') as [-> <-]; try contradiction; exists s, o0; (split; [exact S'|]).
      + exists g, o. auto.
      + exists []. split; [right; auto|]. right. exists s1, o1. split; auto.
      + exists g. split; auto. left. exists o. auto.
      + exists g. split; [left; auto|]. right. exists s1, o1. split; auto. right. split; auto. exists o. auto.
    - intros (s & o0 & S' & X). destruct cmds as [cs|].
      + destruct X as (g & G & [(o1 & B & ->)|(s1 & o1 & Co & [(I & -> & ->)|(I & o2 & R & ->)])]).
        * eapply oc_broken; eauto.
        * destruct G as [[G _]|[_ ->]]; [contradiction|]. eapply oc_commands; eauto.
        * destruct G as [[_ G]|[G _]]; [|contradiction]. eapply oc_both; eauto.
      + destruct X as (g & o1 & G & R & ->). eapply oc_input; eauto. }
  rewrite O1. clear O1 U UN. destruct (start sd files path rand) as [[s o0]| |]; cbn [sbind].
  2,3: split; [discriminate|intros (s & o0 & S' & _); discriminate S'].
  set (notice := if (f SwInteractive || match cmds with None => true | Some _ => false end) && (negb (f SwQuiet) && tty) then [Out (COPYRIGHT_NOTICE ++ WARRANTY_NOTICE)] else []).
  assert (Nt : match cmds with None => forall g, greeting tty pre g <-> g = notice | Some _ => forall g, (given SwInteractive pre /\ greeting tty pre g \/ ~ given SwInteractive pre /\ g = []) <-> g = notice end).
  { destruct cmds as [cs|]; intros g; unfold notice.
    - rewrite orb_false_r. rewrite Gr. rewrite <- Fi. destruct (f SwInteractive); cbn [andb]; split.
      + intros [[_ H]|[H _]]; auto. exfalso. apply H. reflexivity.
      + intros H. left. auto.
      + intros [[H _]|[_ H]]; auto. discriminate H.
      + intros H. right. split; [intro X; discriminate X|exact H].
    - rewrite orb_true_r. cbn [andb]. apply Gr. }
  clearbody notice. destruct cmds as [cs|].
  - split.
    + intro H. exists s, o0. split; auto. exists notice. split; [apply Nt; auto|].
      destruct (command_loop L fuel sd files depth s 1 cs) as [[[[s1 o1]|[o1 b1]]| |]|] eqn:R; cbn [sbind] in H; try discriminate H.
      * apply command_loop_ok in R. destruct R as (o2 & Co & ->). right. exists s1, o2. split; auto. destruct (f SwInteractive) eqn:I.
        -- right. split; [apply Fi; auto|]. unfold after in H. destruct (read_input L fuel sd files depth s1 (text ls)) as [[[o3 b3]| |]|] eqn:R; cbn [sbind] in H; try discriminate H. injection H as <- <-.
           apply read_input_ok in R; auto. destruct R as (o4 & R & ->). exists o4. split; auto. rewrite map_app, !app_assoc. auto.
        -- injection H as <- <-. left. split; [intro X; apply Fi in X; congruence|auto].
      * injection H as <- <-. apply command_loop_broken1 in R. left. exists o1. auto.
    + intros (s' & o0' & S' & g & G & X). injection S' as <- <-. apply Nt in G. subst g. destruct X as [(o1 & B & ->)|(s1 & o1 & Co & X)].
      * apply command_loop_broken1 in B. rewrite B. reflexivity.
      * assert (R : command_loop L fuel sd files depth s 1 cs = Done (Ok (inl (s1, map Showed o1)))) by (apply command_loop_ok; eauto). rewrite R. cbn [sbind].
        destruct X as [(I & -> & ->)|(I & o2 & R2 & ->)].
        -- destruct (f SwInteractive); [exfalso; apply I, Fi; reflexivity|]. reflexivity.
        -- apply Fi in I. rewrite I. assert (R3 : read_input L fuel sd files depth s1 (text ls) = Done (Ok (map Showed o2, b))) by (apply read_input_ok; eauto).
           unfold after. rewrite R3. cbn [sbind]. rewrite map_app, !app_assoc. reflexivity.
  - split.
    + intro H. exists s, o0. split; auto. unfold after in H. destruct (read_input L fuel sd files depth s (text ls)) as [[[o3 b3]| |]|] eqn:R; cbn [sbind] in H; try discriminate H. injection H as <- <-.
      apply read_input_ok in R; auto. destruct R as (o4 & R & ->). exists notice, o4. split; [apply Nt; auto|]. split; auto. rewrite !app_assoc. auto.
    + intros (s' & o0' & S' & g & o1 & G & R & ->). injection S' as <- <-. apply Nt in G. subst g.
      assert (R3 : read_input L fuel sd files depth s (text ls) = Done (Ok (map Showed o1, b))) by (apply read_input_ok; eauto).
      unfold after. rewrite R3. cbn [sbind]. rewrite !app_assoc. reflexivity.
Qed.

(** The outcome depends neither on the order of the switches nor on how often one is given. *)
Lemma command_line_app : forall pre rest p c, Forall a_switch pre -> ~ given SwCommands pre ->
  command_line (pre ++ rest) p c <-> exists p0, p = pre ++ p0 /\ command_line rest p0 c.
Proof.
  intros pre rest p c F N. assert (X : forall p0 c0, command_line rest p0 c0 -> command_line (pre ++ rest) (pre ++ p0) c0).
  { intros p0 c0 H. destruct H as [r Hr|q a cmds Hq A]; [constructor|rewrite app_assoc; constructor; auto]; rewrite given_app; tauto. }
  split.
  - intros H. assert (Y : exists p0 c0, command_line rest p0 c0).
    { destruct switches_ok as (t & _ & T). pose proof (arg_loop_spec t T rest no_flags) as A. destruct (arg_loop t no_flags rest) as [[[f c1]|a]| |]; try contradiction.
      - destruct A as (p0 & A & _). eauto.
      - destruct A as (p1 & p2 & c1 & A & _). eauto. }
    destruct Y as (p0 & c0 & Y). destruct (command_line_fun _ _ _ _ _ H (X _ _ Y)) as [-> ->]. eauto.
  - intros (p0 & -> & H). auto.
Qed.
Theorem C71_switch_order : forall L fuel strtod files depth path rand pre pre' rest tty ls r, Forall text_line ls ->
  Forall a_switch pre -> ~ given SwCommands pre -> (forall sw, given sw pre <-> given sw pre') -> Forall a_switch pre' ->
  main L fuel strtod files depth path rand (pre ++ rest) tty (text ls) = Done (Ok r) <-> main L fuel strtod files depth path rand (pre' ++ rest) tty (text ls) = Done (Ok r).
Proof.
  intros L fuel sd files depth path rand pre pre' rest tty ls [o b] F.
  assert (X : forall pre pre', Forall a_switch pre -> ~ given SwCommands pre -> (forall sw, given sw pre <-> given sw pre') -> Forall a_switch pre' ->
    outcome (exec_command L fuel sd files depth) (starts sd files path rand) tty ls (pre ++ rest) o b -> outcome (exec_command L fuel sd files depth) (starts sd files path rand) tty ls (pre' ++ rest) o b).
  { clear pre pre'. intros pre pre' K N G K' O. assert (N' : ~ given SwCommands pre') by (rewrite <- G; auto).
    assert (CL : forall p c, command_line (pre ++ rest) p c -> exists p0, p = pre ++ p0 /\ command_line (pre' ++ rest) (pre' ++ p0) c).
    { intros p c H. apply command_line_app in H; auto. destruct H as (p0 & -> & H). exists p0. split; auto. apply command_line_app; auto. exists p0. auto. }
    assert (GA : forall p0 sw, given sw (pre ++ p0) <-> given sw (pre' ++ p0)) by (intros p0 sw; rewrite !given_app, G; tauto).
    assert (GR : forall p0 g, greeting tty (pre ++ p0) g -> greeting tty (pre' ++ p0) g) by (intros p0 g; unfold greeting; rewrite GA; auto).
    assert (KA : forall p0, Forall a_switch (pre ++ p0) -> Forall a_switch (pre' ++ p0)) by (intros p0 H; apply Forall_app in H; apply Forall_app; tauto).
    remember (pre ++ rest) as args eqn:Ea.
    destruct O as [? p1 a p2 c C' K1 N1|? p c C' K1 G1|? p c C' K1 N1 G1|? p g s o0 o b C' K1 N1 V' Gr' S' R'|? p c s o0 s1 o1 C' K1 N1 V' I' S' R'|? p c g s o0 o b C' K1 N1 V' I' S' R'|? p c g s o0 s1 o1 o b C' K1 N1 V' I' Gr' S' R' R2']; subst args; destruct (CL _ _ C') as (p0 & Ep & C2); clear C'; try subst p.
    - assert (Q : exists q, p1 = pre ++ q /\ p0 = q ++ a :: p2).
      { clear - Ep K N1. revert p1 Ep. induction pre as [|x pre IH]; intros p1 Ep. { exists p1. auto. } inversion K; subst. destruct p1 as [|y p1]; cbn [app] in Ep; injection Ep as <- Ep; [contradiction|].
        destruct (IH H2 p1 Ep) as (q & -> & ->). exists q. auto. }
      destruct Q as (q & -> & ->). apply (oc_unknown _ _ _ _ _ (pre' ++ q) a p2 c); auto. rewrite <- app_assoc. auto.
    - eapply oc_help; eauto. apply GA. auto.
    - eapply oc_version; eauto; [rewrite <- GA; auto|apply GA; auto].
    - eapply oc_input; eauto; rewrite <- GA; auto.
    - eapply oc_commands; eauto; rewrite <- GA; auto.
    - eapply oc_broken; eauto; try (rewrite <- GA; auto). destruct I' as [[I' Gr']|[I' ->]]; [left; auto|right; auto].
    - eapply oc_both; eauto; try (rewrite <- GA; auto). }
  intros K N G K'. rewrite !C71_program by auto. split; apply X; auto.
  - rewrite <- G. auto.
  - intros sw. symmetry. apply G.
Qed.

(** Commands given as arguments are carried out up to the first that fails; the program succeeds if none does. *)
Theorem C71_commands : forall L fuel strtod files depth path rand cmds tty ls o b, Forall text_line ls ->
  main L fuel strtod files depth path rand (str "-c" :: cmds) tty (text ls) = Done (Ok (o, b)) <->
  exists s o0, starts strtod files path rand s o0 /\
    ((exists s1 o1, carried_out (exec_command L fuel strtod files depth) s cmds s1 o1 /\ o = o0 ++ map Showed o1 /\ b = true) \/
     (exists o1, broken_off (exec_command L fuel strtod files depth) s cmds o1 b /\ o = o0 ++ o1)).
Proof.
  intros L fuel sd files depth path rand cmds tty ls o b F. rewrite C71_program by auto.
  assert (C : command_line (str "-c" :: cmds) [] (Some cmds)) by (apply (cl_commands []); [apply given_nil|right; reflexivity]).
  assert (U : forall p c, command_line (str "-c" :: cmds) p c -> p = [] /\ c = Some cmds) by (intros p c C'; destruct (command_line_fun _ _ _ _ _ C C'); auto).
  split.
  - intros O. remember (str "-c" :: cmds) as args eqn:Ea. destruct O as [? p1 a p2 c C' K1 N1|? p c C' K1 G1|? p c C' K1 N1 G1|? p g s o0 o b C' K1 N1 V' Gr' S' R'|? p c s o0 s1 o1 C' K1 N1 V' I' S' R'|? p c g s o0 o b C' K1 N1 V' I' S' R'|? p c g s o0 s1 o1 o b C' K1 N1 V' I' Gr' S' R' R2']; subst args; destruct (U _ _ C') as [Ep Ec].
    + destruct p1; discriminate Ep.
    + subst. apply given_nil in G1. contradiction.
    + subst. apply given_nil in G1. contradiction.
    + discriminate Ec.
    + injection Ec as ->. exists s, o0. split; auto. left. eauto.
    + injection Ec as ->. subst p. exists s, o0. split; auto. right. exists o. split; auto. destruct I' as [[I' _]|[_ ->]]; auto. apply given_nil in I'. contradiction.
    + subst. apply given_nil in I'. contradiction.
  - intros (s & o0 & S' & [(s1 & o1 & Co & -> & ->)|(o1 & B & ->)]).
    + eapply oc_commands; eauto; apply given_nil.
    + apply (oc_broken _ _ _ _ _ [] cmds []  s o0 o1 b); auto; try apply given_nil. right. split; auto. apply given_nil.
Qed.
(** Commands that all succeed do the same as typed lines (except empty ones, comments and quit, which mean something else as arguments). *)
Theorem C71_as_typed : forall exec cmds s s' o, Forall (fun c => c <> str "quit" /\ ~ skipped c) cmds ->
  carried_out exec s cmds s' o <-> typed exec s cmds s' o true.
Proof.
  intros exec. induction cmds as [|c cs IH]; intros s s' o F.
  - split; intro H; inversion H; subst; constructor.
  - inversion F as [|x y [Q K] Fl]; subst. split; intro H.
    + inversion H as [|? ? ? s1 o1 ? o2 E C]; subst. apply IH in C; auto. change true with (true && true). eapply ty_exec; eauto.
    + inversion H as [|? ? ? ? ? ? Sk|? ? ? s1 o1 b1 ? o2 b2 N1 N2 E T]; subst; [contradiction|]. match goal with X : _ && _ = true |- _ => apply andb_true_iff in X; destruct X; subst end.
      econstructor; eauto. apply IH; auto.
Qed.

(** A run: rules missing, one command defines a function, the next uses it; then a failing command *)
Definition run_of (args : list string) (tty : bool) (ls : list string) : step ended :=
  main no_libm 20 strtod no_files 2 (str "rules") [] (map str args) tty (text (map str ls)).
Definition shows_number (v : double) (x : said) : bool := match x with Showed (SResult (NConst v' _)) => same_double v v' | _ => false end.
Definition message (x : said) : bool := match x with Showed SError => true | _ => false end.
Definition seems (l : list (said -> bool)) (b : bool) (r : step ended) : bool :=
  match r with Done (Ok (o, b')) => Bool.eqb b b' && (List.length l =? List.length o) && forallb (fun p => fst p (snd p)) (combine l o) | _ => false end.
Example C71_run : seems [message; shows_number (of_Z 3)] true (run_of ["-q"; "--commands"; "f(x)=x+1"; "f(2)"] false []) = true.
Proof. vm_compute. reflexivity. Qed.
Example C71_run_fails : seems [message; shows_number (of_Z 3); message; fun x => match x with CommandFailed 2 => true | _ => false end] false
  (run_of ["-c"; "1+2"; "1+"; "3"] false []) = true.
Proof. vm_compute. reflexivity. Qed.
Example C71_run_both : seems [fun x => match x with Out _ => true | _ => false end; message; shows_number (of_Z 3); fun x => match x with Showed (SResult (NVar _ _ _)) => true | _ => false end; message; shows_number (of_Z 5)] false
  (run_of ["-i"; "-c"; "a=3"; "a"] true ["b"; "# comment"; ""; "a*+"; "a+2"; "quit"; "4"]) = true.
Proof. vm_compute. reflexivity. Qed.

Lemma C71_lines_tidy : Forall text_line (map str ["b"; "# comment"; ""; "a*+"; "a+2"; "quit"; "4"]).
Proof. repeat constructor; cbn; intuition discriminate. Qed.
Example C71_order_case : Forall a_switch (map str ["-q"; "-i"; "-q"]) /\ ~ given SwCommands (map str ["-q"; "-i"; "-q"]) /\
  (forall sw, given sw (map str ["-q"; "-i"; "-q"]) <-> given sw (map str ["--interactive"; "-q"])) /\ Forall a_switch (map str ["--interactive"; "-q"]).
Proof.
  assert (I1 : asks SwInteractive (str "-i")) by (right; reflexivity). assert (I2 : asks SwInteractive (str "--interactive")) by (left; reflexivity).
  assert (Q : asks SwQuiet (str "-q")) by (right; reflexivity).
  assert (O : forall a sw sw', asks sw a -> asks sw' a -> sw = sw') by (exact asks_one).
  cbn [map]. split; [repeat constructor; eexists; eauto|]. split; [|split].
  - intro H. rewrite !given_cons in H. destruct H as [H|[H|[H|H]]]; [apply (O _ _ _ H) in Q|apply (O _ _ _ H) in I1|apply (O _ _ _ H) in Q|apply given_nil in H]; congruence || contradiction.
  - intros sw. rewrite !given_cons. split; intros H.
    + destruct H as [H|[H|[H|H]]]; [|left; apply (O _ _ _ H) in I1; subst sw; auto| |right; right; auto]; right; left; auto.
    + destruct H as [H|[H|H]]; [right; left; apply (O _ _ _ H) in I2; subst sw; auto|auto|right; right; right; auto].
  - repeat constructor; eexists; eauto.
Qed.
Print Assumptions C71_start.
Print Assumptions C71_program.
Print Assumptions C71_switch_order.
Print Assumptions C71_commands.
Print Assumptions C71_as_typed.
