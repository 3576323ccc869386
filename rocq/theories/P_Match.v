(** Properties C30 to C36: matching and rewriting. *)
From Coq Require Import List Ascii String NArith ZArith Bool Lia Arith.
From Coq.Floats Require Import SpecFloat.
From Verif Require Import M_Base M_Tree M_TreeUtil M_Match S_Tree S_Match L_Tree L_Match L_MatchSem L_MatchTop L_MatchRule P_Tree.
Import ListNotations.
Open Scope string_scope.
Open Scope list_scope.
Open Scope nat_scope.
Open Scope res_scope.

(** Small trees for the examples: f, g and h take any number of operands. *)
Definition fn (x : string) (id : nat) (cs : list node) : node := NOp (mkOp (str x) id None 255 ALeft PFunction id) cs 0.
Definition f_ := fn "f" 0.
Definition g_ := fn "g" 1.
Definition h_ := fn "h" 2.
Definition v_ (x : string) : node := NVar (str x) 0 0.
Definition c_ (z : positive) : node := NConst (num z) 0.
Definition yes : node -> res bool := fun _ => Ok true.

(** ** C30 *)
Theorem C30_match_is_instance : forall ck p cs pat t m, get_pattern p cs = PatOk pat -> machine_sized t ->
  get_matching ck pat t = Ok (Some m) ->
  exists s, delivers p m s /\ fits s p /\ Forall2 alike (inst s p) [t].
Proof.
  intros ck p cs pat t m HP MS E. unfold get_matching in E. destruct (get_all_matchings ck pat t) as [ms| |] eqn:G; cbn [rbind] in E; try discriminate E.
  destruct ms as [|m0 ms]; [discriminate E|]. injection E as ->.
  destruct (all_sound ck p cs pat HP t (m :: ms) m MS G (or_introl eq_refl)) as (s & A & B & C & _). eauto.
Qed.
Theorem C30_all_matchings_are_instances : forall ck p cs pat t ms, get_pattern p cs = PatOk pat -> machine_sized t ->
  get_all_matchings ck pat t = Ok ms ->
  Forall (fun m => exists s, delivers p m s /\ fits s p /\ Forall2 alike (inst s p) [t]) ms.
Proof.
  intros ck p cs pat t ms HP MS E. apply Forall_forall. intros m I.
  destruct (all_sound ck p cs pat HP t ms m MS E I) as (s & A & B & C & _). eauto.
Qed.
(** What a matching delivers is unique. *)
Theorem C30_delivered_unique : forall p m s s', delivers p m s -> delivers p m s' -> forall x, In x (var_names p) -> s x = s' x.
Proof. exact delivers_unique. Qed.
(** f([xs], y, [ys], y) on f(1, 2, 3, 2) *)
Definition C30_pattern : node := f_ [v_ "[xs]"; v_ "y"; v_ "[ys]"; v_ "y"].
Definition C30_subject : node := f_ [c_ 1; c_ 2; c_ 3; c_ 2].
Example C30_case :
  match get_pattern C30_pattern [] with
  | PatErr _ => False
  | PatOk pat =>
    match get_all_matchings yes pat C30_subject with
    | Ok [m] => map (fun k => mapped_list m k) [0; 1; 2] = [Ok [c_ 1]; Ok [c_ 2]; Ok [c_ 3]]
    | _ => False
    end
  end /\ machine_sized C30_subject.
Proof. vm_compute. repeat split. Qed.
Print Assumptions C30_match_is_instance.
Print Assumptions C30_all_matchings_are_instances.
Print Assumptions C30_delivered_unique.

(** ** C33 *)
(** f(g([xs]), h([xs], [ys])) on f(g(1, 2, 3), h(1)): having bound [xs] to three trees the matcher skips as
    many operands of h(1), the number of those that remain for [ys] wraps around, and the comparison
    with what [xs] is bound to runs past the end of the operands. *)
Definition C33_pattern : node := f_ [g_ [v_ "[xs]"]; h_ [v_ "[xs]"; v_ "[ys]"]].
Definition C33_subject : node := f_ [g_ [c_ 1; c_ 2; c_ 3]; h_ [c_ 1]].
Theorem C33_memory_safe_refuted :
  ~ (forall ck p pat t, get_pattern p [] = PatOk pat -> machine_sized t -> exists r, get_matching ck pat t = Ok r).
Proof.
  intros H. destruct (get_pattern C33_pattern []) as [pat|e] eqn:E; [|vm_compute in E; discriminate E].
  destruct (H yes C33_pattern pat C33_subject E) as [r R]. { vm_compute. repeat split. }
  vm_compute in E. injection E as <-. vm_compute in R. discriminate R.
Qed.
Theorem C33_memory_safe_partial : forall ck p cs pat t, get_pattern p cs = PatOk pat -> machine_sized t ->
  covered p cs -> no_overrun [] p -> answered ck p cs ->
  (exists ms, get_all_matchings ck pat t = Ok ms) /\ (exists r, get_matching ck pat t = Ok r) /\ (exists f, find_matching ck pat t = Ok f).
Proof.
  intros ck p cs pat t HP MS Cov No An.
  assert (G : forall t, machine_sized t -> exists o, get_matching ck pat t = Ok o).
  { intros u MU. destruct (all_safe ck p cs pat HP u MU Cov No An) as [ms E]. unfold get_matching. rewrite E. cbn [rbind]. destruct ms; eauto. }
  split; [apply (all_safe ck p cs pat HP); auto|]. split; auto. apply find_safe; auto.
Qed.
(** f([xs], g(x, [xs]), [ys]) is such a pattern. *)
Definition C33_fine : node := f_ [v_ "[xs]"; g_ [v_ "x"; v_ "[xs]"]; v_ "[ys]"].
Example C33_case : no_overrun [] C33_fine /\ answered yes C33_fine [h_ [v_ "x"]] /\ covered C33_fine [h_ [v_ "x"]]
  /\ match get_pattern C33_fine [h_ [v_ "x"]] with PatOk _ => True | PatErr _ => False end.
Proof.
  split; [vm_compute; intuition discriminate|]. split; [|split; [|vm_compute; exact I]].
  - intros s c F [<-|[]]. eexists _, _. split; reflexivity.
  - intros c x [<-|[]] [<-|[]]. vm_compute. auto.
Qed.
Print Assumptions C33_memory_safe_refuted.
Print Assumptions C33_memory_safe_partial.

(** ** C31 *)
(** f(g([ws], [xs]), h([xs], [ys])) on f(g(2, 2), h(2)) *)
Definition C31_pattern : node := f_ [g_ [v_ "[ws]"; v_ "[xs]"]; h_ [v_ "[xs]"; v_ "[ys]"]].
Definition C31_subject : node := f_ [g_ [c_ 2; c_ 2]; h_ [c_ 2]].
Definition C31_assignment : assignment := fun x =>
  if name_dec x (str "[ws]") then [c_ 2] else if name_dec x (str "[xs]") then [c_ 2] else [].
Theorem C31_finds_instances_refuted :
  ~ (forall ck p pat t s, get_pattern p [] = PatOk pat -> machine_sized t -> instance ck p [] t s ->
     exists m, get_matching ck pat t = Ok (Some m)).
Proof.
  intros H. destruct (get_pattern C31_pattern []) as [pat|e] eqn:E; [|vm_compute in E; discriminate E].
  destruct (H yes C31_pattern pat C31_subject C31_assignment E) as [m R].
  - vm_compute. repeat split.
  - split; [|split].
    + intros x [<-|[<-|[<-|[<-|[]]]]] L; exfalso; apply L; eexists; reflexivity.
    + vm_compute. repeat constructor.
    + constructor.
  - vm_compute in E. injection E as <-. vm_compute in R. discriminate R.
Qed.
(** Whenever the matcher answers at all, it has found every instance. *)
Theorem C31_finds_instances_partial : forall ck p cs pat t ms s, get_pattern p cs = PatOk pat -> machine_sized t ->
  covered p cs -> stable_instance ck p cs t s -> get_all_matchings ck pat t = Ok ms ->
  exists m s', In m ms /\ delivers p m s' /\ agree p s s'.
Proof. intros ck p cs pat t ms s HP MS Cov St E. eapply all_complete; eauto. Qed.
(** For patterns that pass the condition of C33 it does answer. *)
Theorem C31_succeeds_partial : forall ck p cs pat t s, get_pattern p cs = PatOk pat -> machine_sized t ->
  covered p cs -> no_overrun [] p -> answered ck p cs -> stable_instance ck p cs t s ->
  exists m, get_matching ck pat t = Ok (Some m).
Proof.
  intros ck p cs pat t s HP MS Cov No An St. destruct (all_safe ck p cs pat HP t MS Cov No An) as [ms E].
  destruct (all_complete ck p cs pat HP t ms s MS Cov E St) as (m & s' & I & _). unfold get_matching. rewrite E. cbn [rbind].
  destruct ms as [|m0 ms]; [destruct I|eauto].
Qed.
(** Instances are stable if the constraint checker treats equal trees alike. *)
Theorem C31_stable : forall ck p cs t s, (forall a b, alike a b -> ck a = ck b) -> covered p cs ->
  instance ck p cs t s -> stable_instance ck p cs t s.
Proof.
  intros ck p cs t s Hc Cov (A & B & C). split; auto. split; auto. intros s' Ag. apply Forall_forall. intros c Ic. rewrite Forall_forall in C.
  destruct (C c Ic) as (u & U1 & U2).
  assert (G : forall n, (forall x, In x (var_names n) -> In x (var_names p)) -> Forall2 alike (inst s n) (inst s' n)).
  { induction n as [v k|x i k|op l k IH] using node_ind'; intros In; simpl.
    - constructor; [apply alike_refl|constructor].
    - apply teq_list_alike. apply Ag. apply In. left. auto.
    - constructor; [|constructor]. constructor; auto. simpl in In. induction l as [|d l IHl]; simpl; [constructor|]. inversion IH; subst.
      apply Forall2_app; [apply H1|apply IHl; auto]; intros x Ix; apply In; simpl; apply in_or_app; auto. }
  specialize (G c (fun x Ix => Cov c x Ic Ix)). rewrite U1 in G. inversion G as [|? w ? ? G1 G2 G3]; subst. inversion G2; subst.
  exists w. split; auto. rewrite <- (Hc _ _ G1). auto.
Qed.
Definition C31_small (n : node) : res bool := Ok (match n with NOp _ [NConst v _] _ => SFltb v (num 3) | _ => false end).
Example C31_case : let cs := [h_ [v_ "y"]] in
  match get_pattern C30_pattern cs with PatOk _ => True | PatErr _ => False end
  /\ covered C30_pattern cs /\ no_overrun [] C30_pattern /\ answered C31_small C30_pattern cs
  /\ instance C31_small C30_pattern cs C30_subject
       (fun x => if name_dec x (str "y") then [c_ 2] else if name_dec x (str "[xs]") then [c_ 1] else [c_ 3]).
Proof.
  cbn zeta. split; [vm_compute; exact I|]. split; [|split; [|split]].
  - intros c x [<-|[]] [<-|[]]. vm_compute. auto.
  - vm_compute. intuition.
  - intros s c F [<-|[]]. eexists _, _. split; reflexivity.
  - split; [|split].
    + intros x [<-|[<-|[<-|[<-|[]]]]] L; try reflexivity; exfalso; apply L; eexists; reflexivity.
    + vm_compute. repeat constructor.
    + constructor; [|constructor]. eexists. split; reflexivity.
Qed.
Print Assumptions C31_finds_instances_refuted.
Print Assumptions C31_finds_instances_partial.
Print Assumptions C31_succeeds_partial.
Print Assumptions C31_stable.

(** ** C32 *)
(** Constraints are checked when a variable is bound: a pattern without variables has none. *)
Theorem C32_constraints_hold_refuted :
  ~ (forall ck p cs pat t m, get_pattern p cs = PatOk pat -> machine_sized t -> covered p cs ->
     get_matching ck pat t = Ok (Some m) -> exists s, delivers p m s /\ Forall (holds ck s) cs).
Proof.
  intros H. destruct (get_pattern (c_ 1) [c_ 3]) as [pat|e] eqn:E; [|vm_compute in E; discriminate E].
  destruct (H (fun _ => Ok false) (c_ 1) [c_ 3] pat (c_ 1) empty_matching E) as (s & _ & F).
  - exact I.
  - intros c x [<-|[]] [].
  - vm_compute in E. injection E as <-. vm_compute. reflexivity.
  - inversion F as [|? ? (u & _ & F1) _]; subst. discriminate F1.
Qed.
Theorem C32_constraints_hold_partial : forall ck p cs pat t m, get_pattern p cs = PatOk pat -> machine_sized t ->
  covered p cs -> var_names p <> [] -> get_matching ck pat t = Ok (Some m) ->
  exists s, delivers p m s /\ Forall (holds ck s) cs.
Proof.
  intros ck p cs pat t m HP MS Cov NE E. unfold get_matching in E. destruct (get_all_matchings ck pat t) as [ms| |] eqn:G; cbn [rbind] in E; try discriminate E.
  destruct ms as [|m0 ms]; [discriminate E|]. injection E as ->.
  destruct (all_sound ck p cs pat HP t (m :: ms) m MS G (or_introl eq_refl)) as (s & A & B & C & D & _). eauto.
Qed.
(** A constraint about a variable the pattern does not have is checked on the first variable instead. *)
Theorem C32_foreign_variable : exists pat, get_pattern (f_ [v_ "x"]) [h_ [v_ "z"]] = PatOk pat
  /\ get_matching C31_small pat (f_ [c_ 5]) = Ok None /\ get_matching C31_small pat (f_ [c_ 2]) <> Ok None.
Proof. eexists. split; [vm_compute; reflexivity|]. split; vm_compute; [reflexivity|discriminate]. Qed.
Example C32_case : covered C30_pattern [h_ [v_ "y"]] /\ var_names C30_pattern <> []
  /\ match get_pattern C30_pattern [h_ [v_ "y"]] with
     | PatOk pat => (exists m, get_matching C31_small pat C30_subject = Ok (Some m))
         /\ get_matching C31_small pat (f_ [c_ 1; c_ 4; c_ 3; c_ 4]) = Ok None
     | PatErr _ => False
     end.
Proof.
  split; [|split; [discriminate|]]. { intros c x [<-|[]] [<-|[]]. vm_compute. auto. }
  vm_compute. split; eauto.
Qed.
Print Assumptions C32_constraints_hold_refuted.
Print Assumptions C32_constraints_hold_partial.
Print Assumptions C32_foreign_variable.

(** ** C34 *)
Theorem C34_apply_rule : forall ck p cs pat after r t res, get_pattern p cs = PatOk pat -> get_rule pat after = Some r ->
  machine_sized t -> covered p cs -> apply_rule ck t r = Ok res ->
  match res with
  | None => forall q sub s, subtree t q = Some sub -> ~ stable_instance ck p cs sub s
  | Some t' => exists l1 q l2 sub s new, positions t = l1 ++ q :: l2 /\
      fits s p /\ Forall2 alike (inst s p) [sub] /\ (var_names p <> [] -> Forall (holds ck s) cs) /\
      inst s (located (location sub) after) = [new] /\ replaced q sub new t t' /\
      (forall q' sub' s', In q' l1 -> subtree t q' = Some sub' -> ~ stable_instance ck p cs sub' s')
  end.
Proof. intros ck p cs pat after r t res HP HR MS Cov E. eapply apply_rule_spec; eauto. Qed.
Theorem C34_apply_rule_defined : forall ck p cs pat after r t, get_pattern p cs = PatOk pat -> get_rule pat after = Some r ->
  machine_sized t -> covered p cs -> no_overrun [] p -> answered ck p cs -> ~ list_var after ->
  exists res, apply_rule ck t r = Ok res.
Proof. intros ck p cs pat after r t HP HR MS Cov No An NL. eapply apply_rule_total; eauto. Qed.
(** f(x) -> g(x, x) in h(1, f(2), f(3)) *)
Example C34_case :
  match get_pattern (f_ [v_ "x"]) [] with
  | PatErr _ => False
  | PatOk pat =>
    match get_rule pat (g_ [v_ "x"; v_ "x"]) with
    | None => False
    | Some r => apply_rule yes (h_ [c_ 1; f_ [c_ 2]; f_ [c_ 3]]) r = Ok (Some (h_ [c_ 1; g_ [c_ 2; c_ 2]; f_ [c_ 3]]))
                /\ apply_rule yes (h_ [c_ 1; g_ [c_ 2]]) r = Ok None
    end
  end.
Proof. vm_compute. auto. Qed.
Print Assumptions C34_apply_rule.
Print Assumptions C34_apply_rule_defined.

(** ** C35 *)
Theorem C35_apply_ruleset : forall fuel ck rs cap t t' k, apply_ruleset fuel ck rs cap t = Ok (Some (t', k)) ->
  rounds ck rs k t t' /\ ((k = cap /\ 1 <= cap) \/ forall r, In r rs -> apply_rule ck t' r = Ok None) /\ (1 <= cap -> k <= cap).
Proof.
  intros fuel ck rs cap t t' k E. apply ruleset_spec in E. destruct E as (_ & A & B & C). rewrite Nat.sub_0_r in A. split; auto.
  split; [|auto]. destruct B as [[B1 B2]|B]; [left; lia|auto].
Qed.
(** The loop of the program ends: it makes at most [cap] rounds. *)
Theorem C35_terminates : forall ck rs cap t, 1 <= cap -> apply_ruleset cap ck rs cap t <> Ok None.
Proof. intros ck rs cap t L. apply ruleset_fuel; lia. Qed.
(** Without a cap (0) it need not: f(x) -> f(x) *)
Lemma C35_loops : forall ck rs t, apply_first ck t rs = Ok (Some t) -> forall fuel c, apply_ruleset_loop fuel ck rs 0 t c = Ok None.
Proof. intros ck rs t E. induction fuel as [|f IH]; intros c; [reflexivity|]. cbn [apply_ruleset_loop]. rewrite E. cbn [rbind Nat.eqb]. apply IH. Qed.
Theorem C35_cap_zero_diverges : exists pat r, get_pattern (f_ [v_ "x"]) [] = PatOk pat /\ get_rule pat (f_ [v_ "x"]) = Some r
  /\ forall fuel, apply_ruleset fuel yes [r] 0 (f_ [c_ 1]) = Ok None.
Proof.
  eexists _, _. split; [vm_compute; reflexivity|]. split; [vm_compute; reflexivity|].
  intros fuel. apply C35_loops. vm_compute. reflexivity.
Qed.
Example C35_case :
  match get_pattern (f_ [v_ "x"]) [], get_pattern (g_ [v_ "x"; v_ "y"]) [] with
  | PatOk p1, PatOk p2 =>
    match get_rule p1 (g_ [v_ "x"; v_ "x"]), get_rule p2 (h_ [v_ "y"]) with
    | Some r1, Some r2 =>
      apply_ruleset 9 yes [r1; r2] 9 (f_ [f_ [c_ 2]]) = Ok (Some (h_ [h_ [c_ 2]], 5))
      /\ apply_ruleset 2 yes [r1; r2] 2 (f_ [f_ [c_ 2]]) = Ok (Some (g_ [g_ [c_ 2; c_ 2]; f_ [c_ 2]], 2))
    | _, _ => False
    end
  | _, _ => False
  end.
Proof. vm_compute. auto. Qed.
Print Assumptions C35_apply_ruleset.
Print Assumptions C35_terminates.
Print Assumptions C35_cap_zero_diverges.

(** ** C36 *)
Theorem C36_get_rule_accepts : forall p cs pat after, get_pattern p cs = PatOk pat ->
  ((exists r, get_rule pat after = Some r) <-> incl (var_names after) (var_names p)).
Proof.
  intros p cs pat after HP. split.
  - intros [r HR]. eapply rule_vars; eauto.
  - intros I. destruct (get_rule_spec p cs pat after HP) as [A _]. eauto.
Qed.
Theorem C36_no_new_variables : forall ck p cs pat after r t t', get_pattern p cs = PatOk pat -> get_rule pat after = Some r ->
  machine_sized t -> covered p cs -> apply_rule ck t r = Ok (Some t') -> incl (var_names t') (var_names t).
Proof.
  intros ck p cs pat after r t t' HP HR MS Cov E. apply (apply_rule_spec ck p cs pat after r HP HR t _ MS Cov) in E.
  destruct E as (l1 & q & l2 & sub & s & new & _ & _ & A & _ & N & R & _).
  eapply replaced_names; [exact R|]. intros y Iy.
  assert (In y (flat_map var_names (inst s (located (location sub) after)))) as I. { rewrite N. simpl. rewrite app_nil_r. auto. }
  apply inst_names_inv in I. destruct I as (x & Ix & J). rewrite names_located in Ix.
  pose proof (rule_vars p cs pat after r HP HR x Ix) as Ip. pose proof (inst_names s p x y Ip J) as K.
  rewrite (alikes_names _ _ A) in K. simpl in K. rewrite app_nil_r in K. exact K.
Qed.
Example C36_case :
  match get_pattern (f_ [v_ "x"; v_ "[ys]"]) [] with
  | PatErr _ => False
  | PatOk pat => get_rule pat (g_ [v_ "z"]) = None /\ get_rule pat (g_ [v_ "[ys]"]) <> None
  end.
Proof. vm_compute. split; [reflexivity|discriminate]. Qed.
Print Assumptions C36_get_rule_accepts.
Print Assumptions C36_no_new_variables.
